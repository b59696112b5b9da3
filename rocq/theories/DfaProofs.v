(** Lemmas about DFA caches. *)
From Coq Require Import ZArith List Bool Lia.
From Coq Require Import ZifyBool ZifyNat.
From Verif Require Import Outcome PredContextModel PredContextSpec PredContextProofs.
From Verif Require Import SemContextModel SemContextProofs ConfigSetModel ConfigSetSpec ConfigSetProofs DfaModel DfaSpec.
Import ListNotations.
Local Open Scope Z_scope.

(** ** Vectors *)
Lemma set_nth_length {A} (l : list A) : forall n x, length (set_nth n x l) = length l.
Proof. induction l; intros [|n] x; cbn; auto. Qed.

Lemma vset_some {A} (l : list A) i x : 0 <= i < Z.of_nat (length l) -> exists l', vset l i x = Some l'.
Proof.
  intros H. unfold vset. destruct (Z.ltb_spec i 0); [lia|]. destruct (Z.leb_spec (Z.of_nat (length l)) i); [lia|].
  cbn. eauto.
Qed.
Lemma vset_ok {A} (l : list A) i x l' : vset l i x = Some l' ->
  0 <= i < Z.of_nat (length l) /\ length l' = length l /\
  forall j, vget l' j = if j =? i then Some x else vget l j.
Proof.
  unfold vset. destruct (Z.ltb_spec i 0); [discriminate|]. destruct (Z.leb_spec (Z.of_nat (length l)) i); [discriminate|].
  cbn [orb]. intros Q. inversion Q; subst. split; [lia|]. split; [apply set_nth_length|].
  intros j. unfold vget. rewrite nth_set_nth. destruct (Z.ltb_spec j 0).
  - destruct (Z.eqb_spec j i); [lia | reflexivity].
  - destruct (Nat.eqb_spec (Z.to_nat i) (Z.to_nat j)); destruct (Z.eqb_spec j i); try lia; [|reflexivity].
    destruct (Nat.ltb_spec (Z.to_nat i) (length l)); [reflexivity | lia].
Qed.
Lemma vget_lt {A} (l : list A) i x : vget l i = Some x -> 0 <= i < Z.of_nat (length l).
Proof.
  unfold vget. destruct (Z.ltb_spec i 0); [discriminate|]. intros Q.
  assert (nth_error l (Z.to_nat i) <> None) by congruence. apply nth_error_Some in H0. lia.
Qed.
Lemma vget_some {A} (l : list A) i : 0 <= i < Z.of_nat (length l) -> exists x, vget l i = Some x.
Proof.
  intros H. unfold vget. destruct (Z.ltb_spec i 0); [lia|]. destruct (nth_error l (Z.to_nat i)) eqn:Q; [eauto|].
  apply nth_error_None in Q. lia.
Qed.
Lemma vget_app {A} (l r : list A) i : vget (l ++ r) i =
  if i <? Z.of_nat (length l) then vget l i else vget r (i - Z.of_nat (length l)).
Proof.
  unfold vget. destruct (Z.ltb_spec i (Z.of_nat (length l))).
  - destruct (Z.ltb_spec i 0); [reflexivity|]. apply nth_error_app1. lia.
  - destruct (Z.ltb_spec i 0); [lia|]. destruct (Z.ltb_spec (i - Z.of_nat (length l)) 0); [lia|].
    rewrite nth_error_app2 by lia. f_equal. lia.
Qed.
Lemma vget_repeat {A} (x : A) n i : vget (repeat x n) i = if (0 <=? i) && (i <? Z.of_nat n) then Some x else None.
Proof.
  unfold vget. destruct (Z.ltb_spec i 0), (Z.leb_spec 0 i); try lia; cbn [andb]; [reflexivity|].
  destruct (Z.ltb_spec i (Z.of_nat n)).
  - rewrite nth_error_repeat by lia. reflexivity.
  - apply nth_error_None. rewrite repeat_length. lia.
Qed.
Lemma resize_grow {A} (l : list A) n x : Z.of_nat (length l) <= n ->
  length (resize l n x) = Z.to_nat n /\
  forall j, vget (resize l n x) j = if j <? Z.of_nat (length l) then vget l j else if j <? n then Some x else None.
Proof.
  intros H. unfold resize. rewrite firstn_all2 by lia. split; [rewrite app_length, repeat_length; lia|].
  intros j. rewrite vget_app, vget_repeat. destruct (Z.ltb_spec j (Z.of_nat (length l))); [reflexivity|].
  destruct (Z.leb_spec 0 (j - Z.of_nat (length l))); [|lia]. cbn [andb].
  destruct (Z.ltb_spec (j - Z.of_nat (length l)) (Z.of_nat (Z.to_nat n - length l))), (Z.ltb_spec j n); try lia; reflexivity.
Qed.
Lemma vget_neg {A} (l : list A) i : i < 0 -> vget l i = None.
Proof. intros H. unfold vget. destruct (Z.ltb_spec i 0); [reflexivity | lia]. Qed.

(** ** Edge stores *)
Lemma slot_nz v : v <> 0 -> slot (Some v) = Some v.
Proof. destruct v; cbn; congruence. Qed.

Lemma p_add_edge_ok max es t to : -1 <= max -> to <> 0 ->
  (es = [] \/ Z.of_nat (length es) = max + 2) ->
  exists es', p_add_edge max es t to = Val es' /\ (es' = [] \/ Z.of_nat (length es') = max + 2) /\
    forall t', p_get_edge es' t' = if (t' =? t) && (-1 <=? t) && (t <=? max) then Some to else p_get_edge es t'.
Proof.
  intros Hm Hto L. unfold p_add_edge.
  destruct ((t <? -1) || (t >? max)) eqn:R.
  - exists es. split; [reflexivity|]. split; [exact L|]. intros t'.
    destruct ((t' =? t) && (-1 <=? t) && (t <=? max)) eqn:Q; [lia | reflexivity].
  - set (es1 := match es with [] => resize [] (max + 2) 0 | _ => es end).
    assert (A : Z.of_nat (length es1) = max + 2 /\ forall j, slot (vget es1 j) = slot (vget es j)).
    { unfold es1. destruct es as [|e es].
      - destruct (resize_grow (A:=Z) [] (max + 2) 0) as (A & B); [cbn; lia|]. split; [lia|].
        intros j. rewrite B. cbn [length]. change (Z.of_nat 0) with 0.
        destruct (Z.ltb_spec j 0); [reflexivity|]. unfold vget. destruct (Z.ltb_spec j 0); [lia|].
        destruct (Z.to_nat j); destruct (j <? max + 2); reflexivity.
      - destruct L as [|L]; [discriminate|]. split; [exact L | reflexivity]. }
    destruct A as (A1 & A2).
    destruct (vset_some es1 (t + 1) to) as (es' & E); [lia|]. rewrite E. cbn [unwrap].
    exists es'. split; [reflexivity|]. destruct (vset_ok _ _ _ _ E) as (_ & Ll & G). split; [right; lia|].
    intros t'. unfold p_get_edge. rewrite G.
    destruct (Z.eqb_spec (t' + 1) (t + 1)), (Z.eqb_spec t' t); try lia; cbn [andb].
    + destruct (Z.leb_spec (-1) t), (Z.leb_spec t max); try lia. cbn [andb]. apply slot_nz, Hto.
    + apply A2.
Qed.

Lemma l_add_edge_ok es t to : to <> 0 ->
  (es = [] \/ length es = 128%nat) ->
  exists es', l_add_edge es t to = Val es' /\ (es' = [] \/ length es' = 128%nat) /\
    forall t', l_get_edge es' t' = if (t' =? t) && (0 <=? t) && (t <=? 127) then Some to else l_get_edge es t'.
Proof.
  intros Hto L. unfold l_add_edge, l_get_edge, MIN_DFA_EDGE, MAX_DFA_EDGE.
  destruct ((t <? 0) || (t >? 127)) eqn:R.
  - exists es. split; [reflexivity|]. split; [exact L|]. intros t'.
    destruct ((t' =? t) && (0 <=? t) && (t <=? 127)) eqn:Q; [lia | reflexivity].
  - set (es1 := if Z.of_nat (length es) <? 127 - 0 + 1 then resize es (127 - 0 + 1) 0 else es).
    assert (A : length es1 = 128%nat /\ forall j, slot (vget es1 j) = slot (vget es j)).
    { unfold es1. destruct L as [-> | L].
      - destruct (resize_grow (A:=Z) [] 128 0) as (A & B); [cbn; lia|]. split; [exact A|].
        change (if Z.of_nat (length (@nil Z)) <? 127 - 0 + 1 then resize [] (127 - 0 + 1) 0 else []) with (resize (@nil Z) 128 0).
        intros j. rewrite B. cbn [length]. change (Z.of_nat 0) with 0.
        destruct (Z.ltb_spec j 0); [reflexivity|]. unfold vget. destruct (Z.ltb_spec j 0); [lia|].
        destruct (Z.to_nat j); destruct (j <? 128); reflexivity.
      - rewrite L. auto. }
    destruct A as (A1 & A2).
    destruct (vset_some es1 (t - 0) to) as (es' & E); [lia|]. rewrite E. cbn [unwrap].
    exists es'. split; [reflexivity|]. destruct (vset_ok _ _ _ _ E) as (_ & Ll & G). split; [right; lia|].
    intros t'. rewrite G.
    destruct (Z.eqb_spec (t' - 0) (t - 0)), (Z.eqb_spec t' t); try lia; cbn [andb].
    + destruct (Z.leb_spec 0 t), (Z.leb_spec t 127); try lia. cbn [andb]. apply slot_nz, Hto.
    + apply A2.
Qed.

(** stores as a map *)
Lemma store_all_latest {S} (store : S -> Z -> Z -> outcome S) (get : S -> Z -> option Z) (I : S -> Prop) (inr : Z -> bool) :
  (forall s k v, I s -> v <> 0 -> exists s', store s k v = Val s' /\ I s' /\
     forall k', get s' k' = if (k' =? k) && inr k then Some v else get s k') ->
  forall hist s, I s -> (forall k v, In (k, v) hist -> v <> 0) ->
  exists s', store_all store s hist = Val s' /\ I s' /\
    forall k, get s' k = if inr k then match latest hist k with Some v => Some v | None => get s k end else get s k.
Proof.
  intros St. induction hist as [|[k v] hist IH]; intros s Hs NZ; cbn [store_all latest].
  - exists s. split; [reflexivity|]. split; [exact Hs|]. intros k. now destruct (inr k).
  - destruct (St s k v Hs) as (s1 & -> & H1 & G1); [apply (NZ k); left; reflexivity|]. cbn [obindo].
    destruct (IH s1 H1) as (s2 & E2 & H2 & G2); [intros; eapply NZ; right; eauto|].
    exists s2. split; [exact E2|]. split; [exact H2|]. intros k0. rewrite G2, !G1.
    destruct (inr k0) eqn:Rk0; [|destruct (Z.eqb_spec k0 k); cbn [andb]; [subst; rewrite Rk0; reflexivity | reflexivity]].
    destruct (latest hist k0); [reflexivity|].
    rewrite (Z.eqb_sym k k0). destruct (Z.eqb_spec k0 k); cbn [andb]; [subst; rewrite Rk0; reflexivity | reflexivity].
Qed.

(** ** Precedence start states *)
Section Prec.
  Variables X E : Type.
  Definition prec_ok (d : dfa X E) : Prop := is_precedence_dfa d = true /\ exists i st, s0 d = Some i /\ vget (dfa_states d) i = Some st.

  Lemma prec_set_ok (d : dfa X E) p v : prec_ok d -> v <> 0 ->
    exists d', set_precedence_start_state X E d p v = Val d' /\ prec_ok d' /\
      forall p', get_precedence_start_state X E d' p' =
        if (p' =? p) && (0 <=? p) then Val (Some v) else get_precedence_start_state X E d p'.
  Proof.
    intros (P & i & st & S0 & V) Hv. unfold set_precedence_start_state, get_precedence_start_state. rewrite P, S0, V. cbn [negb].
    destruct (Z.ltb_spec p 0).
    - exists d. split; [reflexivity|]. split; [split; eauto|]. intros p'. rewrite P, S0, V. cbn [negb unwrap obindo].
      destruct (Z.leb_spec 0 p); [lia|]. rewrite andb_false_r. reflexivity.
    - cbn [unwrap obindo].
      set (es := if Z.of_nat (length (d_edges st)) <=? p then resize (d_edges st) (p + 1) 0 else d_edges st).
      assert (A : p < Z.of_nat (length es) /\ forall j, slot (vget es j) = slot (vget (d_edges st) j)).
      { unfold es. destruct (Z.leb_spec (Z.of_nat (length (d_edges st))) p); [|split; [lia | reflexivity]].
        destruct (resize_grow (d_edges st) (p + 1) 0) as (A & B); [lia|]. split; [lia|]. intros j. rewrite B.
        destruct (Z.ltb_spec j (Z.of_nat (length (d_edges st)))); [reflexivity|].
        destruct (vget (d_edges st) j) eqn:Q; [apply vget_lt in Q; lia|]. destruct (j <? p + 1); reflexivity. }
      destruct A as (A1 & A2).
      destruct (vset_some es p v) as (es' & Ees); [lia|]. rewrite Ees. cbn [unwrap obindo].
      destruct (vset_some (dfa_states d) i (with_edges X E st es')) as (l & El); [eapply vget_lt, V|]. rewrite El. cbn [unwrap obindo].
      destruct (vset_ok _ _ _ _ Ees) as (_ & _ & Ge). destruct (vset_ok _ _ _ _ El) as (_ & _ & Gl).
      eexists. split; [reflexivity|]. split.
      + split; [exact P|]. exists i, (with_edges X E st es'). split; [exact S0|].
        cbn [with_states dfa_states]. rewrite Gl, Z.eqb_refl. reflexivity.
      + intros p'. cbn [with_states is_precedence_dfa s0 dfa_states]. rewrite P, S0, Gl, Z.eqb_refl. cbn [negb unwrap obindo with_edges d_edges].
        rewrite Ge. destruct (Z.leb_spec 0 p); [|lia]. rewrite andb_true_r.
        destruct (Z.eqb_spec p' p); [rewrite slot_nz by exact Hv; reflexivity | rewrite A2; reflexivity].
  Qed.
End Prec.

(** ** State deduplication *)
Section Dedup.
  Variables X E : Type.
  Variable x_eqb : X -> X -> bool.
  Variable dhash : list (config X) -> Z.
  Variable share : pctx -> pctx.
  Variable max : Z.
  Hypothesis Hx : forall x y, x_eqb x y = true <-> x = y.
  Hypothesis Hhash : forall a b, map lexer_key a = map lexer_key b -> dhash a = dhash b.
  Hypothesis Hshare : forall x, wf x -> share x = x.

  Definition good_set (s : config_set X) : Prop := Forall good_config (configs s).

  Lemma configs_eqb_ok a : Forall good_config a -> forall b, Forall good_config b ->
    (configs_eqb X x_eqb a b = true <-> map lexer_key a = map lexer_key b).
  Proof.
    induction 1 as [|x a Gx Ga IH]; intros b Gb; destruct b as [|y b]; cbn [configs_eqb map]; try (split; intros; congruence).
    inversion Gb as [|? ? Gy Gb']; subst. rewrite andb_true_iff, (IH b Gb').
    rewrite (lexer_key_ok X x_eqb x y Hx Gx Gy). split; [intros (A & B); congruence | intros Q; split; [exact (f_equal (hd (lexer_key x)) Q) | exact (f_equal (@tl _) Q)]].
  Qed.

  Lemma set_eqb_ok a b : good_set a -> good_set b -> (set_eqb X x_eqb a b = true <-> same_set a b).
  Proof.
    intros Ga Gb. unfold set_eqb, same_set. rewrite !andb_true_iff, configs_eqb_ok by assumption.
    rewrite !Bool.eqb_true_iff, Z.eqb_eq, zlist_eqb_eq. tauto.
  Qed.

  Lemma share_all_ok cs : Forall good_config cs -> share_all X share cs = Val cs.
  Proof.
    induction 1 as [|c cs (x & Cx & Wx) G IH]; cbn [share_all]; [reflexivity|].
    rewrite Cx. cbn [unwrap obindo]. rewrite IH. cbn [obindo]. rewrite Hshare by exact Wx.
    destruct c; cbn in *; subst; reflexivity.
  Qed.

  Lemma same_set_sym a b : same_set (X:=X) a b -> same_set b a.
  Proof. unfold same_set. intuition. Qed.
  Lemma same_set_trans a b c : same_set (X:=X) a b -> same_set b c -> same_set a c.
  Proof. unfold same_set. intuition congruence. Qed.
  Lemma same_set_refl a : same_set (X:=X) a a.
  Proof. unfold same_set. intuition. Qed.

  Lemma map_push_get m k x k' : map_get (map_push m k x) k' =
    if k =? k' then Some (match map_get m k with Some b => b ++ [x] | None => [x] end) else map_get m k'.
  Proof.
    induction m as [|[k0 b] m IH]; cbn [map_push map_get].
    - reflexivity.
    - destruct (Z.eqb_spec k0 k) as [->|N]; cbn [map_get].
      + destruct (Z.eqb_spec k k'); reflexivity.
      + rewrite IH. destruct (Z.eqb_spec k0 k'), (Z.eqb_spec k k'); subst; try congruence; try reflexivity.
  Qed.

  Definition base (d : dfa X E) : Z := if is_precedence_dfa d then 1 else 0.

  Record dinv (d : dfa X E) (l : list (Z * config_set X)) : Prop := {
    v_len : base d < Z.of_nat (length (dfa_states d));
    v_s0 : is_precedence_dfa d = true -> s0 d = Some 1;
    v_sub : forall r cs, In (r, cs) l -> good_set cs /\ base d < r /\
      (exists st, vget (dfa_states d) r = Some st /\ good_set (d_configs st) /\ same_set (d_configs st) cs /\ d_number st = r /\ read_only (d_configs st) = true) /\
      exists b, map_get (states_map d) (dhash (configs cs)) = Some b /\ In r b;
    v_map : forall k b i, map_get (states_map d) k = Some b -> In i b -> exists cs, In (i, cs) l
  }.

  Lemma find_state_ok d l b cs : dinv d l -> good_set cs ->
    (forall i, In i b -> exists c0, In (i, c0) l) ->
    exists o, find_state X x_eqb E (dfa_states d) b cs = Val o /\
      match o with
      | Some i => In i b /\ exists c0, In (i, c0) l /\ same_set c0 cs
      | None => forall i c0, In i b -> In (i, c0) l -> ~ same_set c0 cs
      end.
  Proof.
    intros V G. induction b as [|i b IH]; intros Hb; cbn [find_state].
    - exists None. split; [reflexivity|]. intros i c0 [].
    - destruct (Hb i (or_introl eq_refl)) as (c0 & I0).
      destruct (v_sub _ _ V _ _ I0) as (G0 & _ & (st & Vs & Gst & Ss & _) & _).
      rewrite Vs. cbn [unwrap obindo]. destruct (set_eqb X x_eqb (d_configs st) cs) eqn:Q.
      + exists (Some i). split; [reflexivity|]. split; [left; reflexivity|]. exists c0. split; [exact I0|].
        apply set_eqb_ok in Q; auto. eapply same_set_trans; [apply same_set_sym, Ss | exact Q].
      + destruct IH as (o & Eo & Ho); [intros j Hj; apply Hb; right; exact Hj|]. exists o. split; [exact Eo|].
        destruct o as [j|].
        * destruct Ho as (A & B). split; [right; exact A | exact B].
        * intros j c1 [<-|Hj] I1; [|eauto]. intros S1.
          destruct (v_sub _ _ V _ _ I1) as (_ & _ & (st1 & Vs1 & _ & Ss1 & _) & _).
          assert (st1 = st) by congruence. subst st1.
          assert (T : set_eqb X x_eqb (d_configs st) cs = true) by (apply set_eqb_ok; auto; eapply same_set_trans; eauto). congruence.
  Qed.

  (** what one submission does *)
  Lemma add_state_ok d l st : dinv d l -> good_set (d_configs st) -> d_number st <> ERROR_DFA_STATE_REF ->
    exists d' r, p_add_dfastate X x_eqb E dhash share d st = Val (d', r) /\ 0 < r /\
      (((exists cs, In (r, cs) l /\ same_set cs (d_configs st)) /\ d' = d) \/
       ((forall r' cs, In (r', cs) l -> ~ same_set cs (d_configs st)) /\ r = Z.of_nat (length (dfa_states d)) /\
        exists new, dfa_states d' = dfa_states d ++ [new] /\ d_number new = r /\ same_set (d_configs new) (d_configs st) /\
          good_set (d_configs new) /\ (read_only (d_configs new) = true) /\
          d_edges new = d_edges st /\ d_accept new = d_accept st /\ d_prediction new = d_prediction st /\
          d_exec new = d_exec st /\ d_full new = d_full st /\ d_preds new = d_preds st /\
          states_map d' = map_push (states_map d) (dhash (configs (d_configs st))) r /\ s0 d' = s0 d /\
          is_precedence_dfa d' = is_precedence_dfa d)).
  Proof.
    intros V G N. unfold p_add_dfastate. rewrite (proj2 (Z.eqb_neq _ _) N).
    set (key := dhash (configs (d_configs st))).
    assert (F : exists o, (match map_get (states_map d) key with
                           | Some b => find_state X x_eqb E (dfa_states d) b (d_configs st)
                           | None => Val None end) = Val o /\
             match o with
             | Some i => exists c0, In (i, c0) l /\ same_set c0 (d_configs st)
             | None => forall i c0, In (i, c0) l -> ~ same_set c0 (d_configs st)
             end).
    { assert (InB : forall i c0, In (i, c0) l -> same_set c0 (d_configs st) -> exists b, map_get (states_map d) key = Some b /\ In i b).
      { intros i c0 I0 S0. destruct (v_sub _ _ V _ _ I0) as (_ & _ & _ & B).
        unfold key. rewrite <- (Hhash _ _ (proj1 S0)). exact B. }
      destruct (map_get (states_map d) key) as [b|] eqn:M.
      - destruct (find_state_ok d l b (d_configs st) V G) as (o & Eo & Ho).
        { intros i Hi. eapply (v_map _ _ V); eauto. }
        exists o. split; [exact Eo|]. destruct o as [i|].
        + destruct Ho as (_ & B). exact B.
        + intros i c0 I0 S0. destruct (InB i c0 I0 S0) as (b' & Eb & Ib). inversion Eb; subst. exact (Ho i c0 Ib I0 S0).
      - exists None. split; [reflexivity|]. intros i c0 I0 S0. destruct (InB i c0 I0 S0) as (b' & Eb & _). discriminate. }
    destruct F as (o & Eo & Ho). rewrite Eo. cbn [obindo]. destruct o as [i|].
    - exists d, i. split; [reflexivity|]. destruct Ho as (c0 & I0 & S0).
      destruct (v_sub _ _ V _ _ I0) as (_ & B & _). split; [unfold base in B; destruct (is_precedence_dfa d); lia|].
      left. split; [exists c0; auto | reflexivity].
    - assert (C : exists cs, (if read_only (d_configs st) then Val (d_configs st)
                   else obindo (optimize_configs X share (d_configs st)) (fun cs => Val (set_read_only X cs true))) = Val cs /\
                  same_set cs (d_configs st) /\ good_set cs /\ read_only cs = true).
      { destruct (read_only (d_configs st)) eqn:R.
        - exists (d_configs st). split; [reflexivity|]. split; [apply same_set_refl|]. split; [exact G | exact R].
        - unfold optimize_configs. rewrite share_all_ok by exact G. cbn [obindo].
          eexists. split; [reflexivity|]. split; [unfold same_set; cbn; auto 10|]. split; [exact G | reflexivity]. }
      destruct C as (cs & -> & Sc & Gc & Rc). cbn [obindo].
      eexists _, (Z.of_nat (length (dfa_states d))). split; [reflexivity|].
      pose proof (v_len _ _ V) as B. split; [unfold base in B; destruct (is_precedence_dfa d); lia|].
      right. split; [exact Ho|]. split; [reflexivity|]. eexists. cbn [dfa_states]. split; [reflexivity|]. cbn. auto 20.
  Qed.

  Lemma add_step d l st d' r : dinv d l -> good_set (d_configs st) -> d_number st <> ERROR_DFA_STATE_REF ->
    p_add_dfastate X x_eqb E dhash share d st = Val (d', r) -> dinv d' ((r, d_configs st) :: l).
  Proof.
    intros V G N Ea. destruct (add_state_ok d l st V G N) as (d1 & r1 & E1 & Pos & C). rewrite Ea in E1. inversion E1; subst d1 r1.
    destruct C as [((cs & I0 & S0) & ->) | (Nn & -> & new & Es & En & Ss & Gn & Rn & _ & _ & _ & _ & _ & _ & Em & Es0 & Ep)].
    - destruct V as [Vl Vs Vb Vm]. constructor; auto.
      + intros r0 c0 [Q|I1]; [|auto]. inversion Q; subst. destruct (Vb _ _ I0) as (_ & B & (s1 & A1 & A2 & A3 & A4) & b & Mb & Ib).
        split; [exact G|]. split; [exact B|]. split.
        * exists s1. split; [exact A1|]. split; [exact A2|]. split; [eapply same_set_trans; eauto | exact A4].
        * exists b. rewrite <- (Hhash _ _ (proj1 S0)). auto.
      + intros k b i M I1. destruct (Vm k b i M I1) as (c0 & J). exists c0. right. exact J.
    - destruct V as [Vl Vs Vb Vm].
      assert (Bd : base d' = base d) by (unfold base; rewrite Ep; reflexivity).
      constructor.
      + rewrite Bd, Es, app_length. cbn. lia.
      + rewrite Ep, Es0. exact Vs.
      + intros r0 c0 [Q|I1].
        * inversion Q; subst r0 c0. split; [exact G|]. split; [lia|]. split.
          -- exists new. split; [|auto]. rewrite Es, vget_app, Z.ltb_irrefl, Z.sub_diag. reflexivity.
          -- rewrite Em, map_push_get, Z.eqb_refl. eexists. split; [reflexivity|].
             destruct (map_get (states_map d) (dhash (configs (d_configs st)))); [apply in_or_app; right; left; reflexivity | left; reflexivity].
        * destruct (Vb _ _ I1) as (G0 & B & (s1 & A1 & A2) & b & Mb & Ib). split; [exact G0|]. split; [lia|]. split.
          -- exists s1. split; [|exact A2]. rewrite Es, vget_app. pose proof (vget_lt _ _ _ A1).
             destruct (Z.ltb_spec r0 (Z.of_nat (length (dfa_states d)))); [exact A1 | lia].
          -- rewrite Em, map_push_get. destruct (Z.eqb_spec (dhash (configs (d_configs st))) (dhash (configs c0))) as [Q|Q].
             ++ rewrite Q, Mb. eexists. split; [reflexivity | apply in_or_app; left; exact Ib].
             ++ exists b. auto.
      + intros k b i M I1. rewrite Em, map_push_get in M.
        destruct (Z.eqb_spec (dhash (configs (d_configs st))) k) as [Q|Q].
        * inversion M; subst b. clear M.
          assert (D : i = Z.of_nat (length (dfa_states d)) \/ exists b0, map_get (states_map d) (dhash (configs (d_configs st))) = Some b0 /\ In i b0).
          { destruct (map_get (states_map d) (dhash (configs (d_configs st)))) as [b0|].
            - apply in_app_or in I1. destruct I1 as [I1 | [<-|[]]]; [right; eauto | left; reflexivity].
            - destruct I1 as [<-|[]]. left. reflexivity. }
          destruct D as [-> | (b0 & M0 & I2)]; [exists (d_configs st); left; reflexivity|].
          destruct (Vm _ _ _ M0 I2) as (c0 & J). exists c0. right. exact J.
        * destruct (Vm _ _ _ M I1) as (c0 & J). exists c0. right. exact J.
  Qed.

  (** states above [base] keep everything but their edges *)
  Definition keeps (d d' : dfa X E) : Prop :=
    forall i st, base d < i -> vget (dfa_states d) i = Some st ->
      exists st', vget (dfa_states d') i = Some st' /\ frozen st' = frozen st.

  Lemma frozen_inv d l d' : dinv d l -> keeps d d' -> length (dfa_states d') = length (dfa_states d) ->
    states_map d' = states_map d -> is_precedence_dfa d' = is_precedence_dfa d ->
    (is_precedence_dfa d = true -> s0 d' = s0 d) -> dinv d' l.
  Proof.
    intros [Vl Vs Vb Vm] K L M P S0. assert (Bd : base d' = base d) by (unfold base; rewrite P; reflexivity).
    constructor; [lia | | | rewrite M; exact Vm].
    - rewrite P. intros Q. rewrite S0 by exact Q. auto.
    - intros r cs I0. destruct (Vb _ _ I0) as (G & B & (st & A1 & A2 & A3 & A4 & A5) & Hb). split; [exact G|]. split; [lia|].
      rewrite M. split; [|exact Hb]. destruct (K r st B A1) as (st' & V' & F). exists st'. split; [exact V'|].
      unfold frozen in F. inversion F as [[F1 F2 F3 F4 F5 F6 F7]]. rewrite F1, F2. auto.
  Qed.

  Lemma step_ok d l o d' : dinv d l -> dfa_step x_eqb dhash share max d o d' -> dinv d' (o ++ l) /\ keeps d d' /\ base d' = base d.
  Proof.
    intros V H. destruct H as [d st d' r G N Ea | d from t to d' Ea | d p i d' Ea | d i st cs ls P S0 Vg Vt | d i P].
    - split; [eapply add_step; eauto|].
      destruct (add_state_ok d l st V G N) as (d1 & r1 & E1 & Pos & C). rewrite Ea in E1. inversion E1; subst d1 r1.
      destruct C as [(_ & ->) | (Nn & -> & new & Es & En & Ss & Gn & Rn & _ & _ & _ & _ & _ & _ & Em & Es0 & Ep)].
      + split; [intros i s1 _ V1; exists s1; auto | reflexivity].
      + split; [|unfold base; rewrite Ep; reflexivity]. intros i s1 _ V1. exists s1. split; [|reflexivity]. rewrite Es, vget_app.
        pose proof (vget_lt _ _ _ V1). destruct (Z.ltb_spec i (Z.of_nat (length (dfa_states d)))); [exact V1 | lia].
    - unfold p_dfa_add_edge in Ea. destruct (vget (dfa_states d) from) as [st|] eqn:Vf; [|discriminate]. cbn [unwrap obindo] in Ea.
      destruct (p_add_edge max (d_edges st) t to) as [es| |]; try discriminate. cbn [obindo] in Ea.
      destruct (vset (dfa_states d) from (with_edges X E st es)) as [ls|] eqn:Vt; [|discriminate]. cbn [unwrap obindo] in Ea.
      inversion Ea; subst d'. destruct (vset_ok _ _ _ _ Vt) as (_ & Ll & Gl).
      assert (K : keeps d (with_states X E d ls)).
      { intros i s1 _ V1. cbn [with_states dfa_states]. rewrite Gl. destruct (Z.eqb_spec i from); [|exists s1; auto].
        subst i. assert (s1 = st) by congruence. subst s1. eexists. split; reflexivity. }
      split; [|split; [exact K | reflexivity]]. eapply frozen_inv; eauto.
    - unfold set_precedence_start_state in Ea. destruct (is_precedence_dfa d) eqn:P; cbn [negb] in Ea; [|discriminate].
      assert (Same : d' = d -> dinv d' ([] ++ l) /\ keeps d d' /\ base d' = base d).
      { intros ->. split; [exact V|]. split; [intros j s1 _ V1; exists s1; auto | reflexivity]. }
      destruct (p <? 0); [apply Same; congruence|]. destruct (s0 d) as [j|] eqn:S0; [|apply Same; congruence]. clear Same.
      destruct (vget (dfa_states d) j) as [st|] eqn:Vf; [|discriminate]. cbn [unwrap obindo] in Ea.
      destruct (vset _ p i) as [es|]; [|discriminate]. cbn [unwrap obindo] in Ea.
      destruct (vset (dfa_states d) j (with_edges X E st es)) as [ls|] eqn:Vt; [|discriminate]. cbn [unwrap obindo] in Ea.
      inversion Ea; subst d'. destruct (vset_ok _ _ _ _ Vt) as (_ & Ll & Gl).
      assert (K : keeps d (with_states X E d ls)).
      { intros i0 s1 _ V1. cbn [with_states dfa_states]. rewrite Gl. destruct (Z.eqb_spec i0 j); [|exists s1; auto].
        subst i0. assert (s1 = st) by congruence. subst s1. eexists. split; reflexivity. }
      split; [|split; [exact K | reflexivity]]. eapply frozen_inv; eauto.
    - assert (i = 1) by (pose proof (v_s0 _ _ V P); congruence). subst i.
      destruct (vset_ok _ _ _ _ Vt) as (_ & Ll & Gl).
      assert (K : keeps d (with_states X E d ls)).
      { intros i0 s1 B V1. cbn [with_states dfa_states]. rewrite Gl. unfold base in B. rewrite P in B.
        destruct (Z.eqb_spec i0 1); [lia | exists s1; auto]. }
      split; [|split; [exact K | reflexivity]]. eapply frozen_inv; eauto.
    - assert (K : keeps d (Dfa X E (dfa_states d) (states_map d) (Some i) false)) by (intros i0 s1 _ V1; exists s1; auto).
      split; [|split; [exact K | unfold base; cbn; rewrite P; reflexivity]]. eapply frozen_inv; eauto. cbn. congruence.
  Qed.

  Lemma hist_ok d l : dfa_hist x_eqb dhash share max d l -> dinv d l.
  Proof.
    induction 1 as [prec | d l d' o H IH St].
    - destruct prec; constructor; cbn; try lia; try congruence; try (intros ? ? []); try (intros; discriminate).
    - eapply step_ok; eauto.
  Qed.
End Dedup.
