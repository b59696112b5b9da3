(** Proofs about lexer matching (C33, C34, C35, C37). *)
From Coq Require Import ZArith List Sorted Bool Lia.
From Coq Require Import ZifyBool ZifyNat.
From Verif Require Import Outcome CharStreamModel CharStreamSpec CharStreamProofs IntervalSetSpec PredContextModel SemContextModel
  SemContextProofs PredContextSpec PredContextProofs ConfigSetModel ConfigSetProofs DfaModel DfaProofs AtnModel AtnSpec AtnProofs Ll1Spec LexerModel LexerSpec LexerProofs LexMatchSpec.
From Verif Require FactoryModel.
Import ListNotations.
Local Open Scope Z_scope.
Local Open Scope outcome_scope.

(** ** Stacks as contexts *)
Fixpoint ctx_of (st : list Z) : pctx :=
  match st with [] => EMPTY | f :: st => Singleton f (Some (ctx_of st)) end.
Lemma ctx_of_inj x : forall y, ctx_of x = ctx_of y -> x = y.
Proof. induction x as [|f x IH]; intros [|g y] H; cbn in H; try discriminate; auto. inversion H. f_equal; auto. Qed.
Lemma ctx_eqb x : forall y, pctx_eqb (ctx_of x) (ctx_of y) = true -> x = y.
Proof.
  induction x as [|f x IH]; intros [|g y] H; cbn in H; rewrite ?andb_true_iff in H; try (destruct H; discriminate); auto.
  destruct H as (A & B). apply Z.eqb_eq in A. apply IH in B. congruence.
Qed.
Lemma merge_refl hash f wild x k : merge hash (S f) wild x x k = Val (x, k).
Proof. cbn [merge]. rewrite pctx_eqb_refl. reflexivity. Qed.

Lemma action_eqb_eq x : forall y, lexer_action_eqb x y = true -> x = y.
Proof.
  induction x; intros [] H; cbn in H; try discriminate; auto; rewrite ?andb_true_iff, ?Z.eqb_eq in H; try congruence.
  - destruct H; congruence.
  - destruct H as (A & B). apply IHx in B. congruence.
Qed.
Lemma action_eqb_refl x : lexer_action_eqb x x = true.
Proof. induction x; cbn; rewrite ?Z.eqb_refl; auto. Qed.
Lemma actions_eqb_eq x : forall y, lexer_actions_eqb x y = true -> x = y.
Proof.
  induction x as [|u x IH]; intros [|v y] H; cbn in H; try discriminate; auto.
  apply andb_true_iff in H. destruct H as (A & B). apply action_eqb_eq in A. apply IH in B. congruence.
Qed.
Lemma actions_eqb_refl x : lexer_actions_eqb x x = true.
Proof. induction x; cbn; rewrite ?action_eqb_refl; auto. Qed.
Lemma type_eqb_eq x y : lexer_type_eqb x y = true -> x = y.
Proof.
  destruct x as [[[h e]|] p], y as [[[h' e']|] p']; unfold lexer_type_eqb; cbn; intros H; try discriminate.
  - apply andb_true_iff in H. destruct H as (A & B). unfold executor_eqb in A. cbn in A.
    apply andb_true_iff in A. destruct A as (A1 & A2). apply Z.eqb_eq in A1. apply actions_eqb_eq in A2.
    apply eqb_prop in B. congruence.
  - apply eqb_prop in H. congruence.
Qed.

(** ** Actions without the offsets *)
Fixpoint bare (x : lexer_action) : lexer_action :=
  match x with LexerIndexedCustomAction _ y => bare y | _ => x end.
Lemma bare_fix o x : bare (fix_offset o x) = bare x.
Proof. destruct x; reflexivity. Qed.
Definition acts (c : lconfig) : list lexer_action :=
  match lt_exec (c_type c) with None => [] | Some e => map bare (ex_actions e) end.

Section Match.
  Variable D : input_data.
  Variable U : Type.
  Variable a : atn.
  Variable sempred : Z -> Z -> lexer U -> bool * lexer U.
  Variable ctx_hash : pctx -> Z.
  Variable actions_hash : list lexer_action -> Z.
  Hypothesis FM : lexer_formed a.
  Notation lexer := (lexer U).

  Lemma state_of_ok i s : state_at a i = Some s -> state_of a i = Val s.
  Proof. unfold state_of, vget, state_at. intros ->. reflexivity. Qed.
  Lemma state_of_val i s : state_of a i = Val s -> state_at a i = Some s.
  Proof. unfold state_of, vget, state_at. destruct (i <? 0); [discriminate|]. destruct (nth_error _ _); cbn; congruence. Qed.
  Lemma number i s : state_at a i = Some s -> st_number s = i.
  Proof. intros H. apply FM in H. apply H. Qed.
  Lemma state_lt i : exists_state a i -> i <> EMPTY_RETURN_STATE.
  Proof.
    unfold exists_state, state_at. destruct FM as (L & _). destruct (i <? 0) eqn:E; [congruence|].
    intros H. apply nth_error_Some in H. unfold EMPTY_RETURN_STATE. lia.
  Qed.

  (** a configuration standing at a position *)
  Definition cfg (c : lconfig) (p : position) : Prop :=
    c_state c = fst p /\ c_ctx c = Some (ctx_of (snd p)) /\ c_sem c = NONE /\ c_reach c = 0 /\ c_pfs c = false.
  Definition sound_pos (p : position) : Prop := exists_state a (fst p) /\ Forall (exists_state a) (snd p).

  Lemma cfg_same c p q : cfg c p -> cfg c q -> p = q.
  Proof.
    intros (A & B & _) (A' & B' & _). destruct p as [i st], q as [j st']. cbn in *. f_equal; [congruence|].
    apply ctx_of_inj. congruence.
  Qed.

  Lemma config_eqb_cfg c d p q : cfg c p -> cfg d q -> config_eqb lexer_type lexer_type_eqb c d = true -> c = d.
  Proof.
    intros (A1 & A2 & A3 & A4 & A5) (B1 & B2 & B3 & B4 & B5) H. unfold config_eqb in H. rewrite !andb_true_iff in H.
    destruct H as (((((H1 & H2) & H3) & H4) & _) & _). rewrite Z.eqb_eq in H1, H2. apply type_eqb_eq in H4.
    rewrite A2, B2 in H3. cbn in H3. apply ctx_eqb in H3. destruct c, d; cbn in *. congruence.
  Qed.

  Definition set_inv (cs : lset) : Prop :=
    read_only cs = false /\ set_hasher cs = FullKey /\ has_semantic_context cs = false /\
    (forall c i, In (c, i) (config_lookup cs) -> nth_error (configs cs) i = Some c) /\
    (forall c, In c (configs cs) -> exists p, cfg c p).

  Lemma set_nth_id {A} (l : list A) : forall n x, nth_error l n = Some x -> set_nth n x l = l.
  Proof. induction l as [|y l IH]; intros [|n] x H; cbn in *; try discriminate; try congruence. rewrite IH; auto. Qed.

  Lemma add_total cs c p : set_inv cs -> cfg c p ->
    exists cs', add ctx_hash cs c = Val cs' /\ set_inv cs' /\
      In c (configs cs') /\ exists new, configs cs' = configs cs ++ new /\ (new = [] \/ new = [c]).
  Proof.
    intros (I1 & I2 & I3 & I4 & I5) C. assert (C' := C). destruct C as (C1 & C2 & C3 & C4 & C5).
    unfold add, add_cached. rewrite I1, I2, C3, C4.
    replace (sem_eqb NONE NONE) with true by (symmetry; apply sem_eqb_eq; reflexivity).
    change (0 >? 0) with false. cbv iota.
    destruct (lookup lexer_type lexer_type_eqb FullKey (config_lookup cs) c) as [i|] eqn:L.
    - apply lookup_some in L. destruct L as (c' & In' & K). pose proof (I4 _ _ In') as N. cbn [key_eqb] in K.
      assert (Ic : In c' (configs cs)) by (eapply nth_error_In; eauto).
      destruct (I5 c' Ic) as (q & Q). apply (config_eqb_cfg _ _ _ _ Q C') in K. subst c'.
      rewrite N. cbn [unwrap obindo]. rewrite C2. cbn [unwrap obindo]. rewrite merge_refl. cbn [obindo].
      eexists. split; [reflexivity|].
      assert (E : set_nth i (Config (c_state c) (c_alt c) (Some (ctx_of (snd p))) (c_sem c) (Z.max (c_reach c) 0)
               (if c_pfs c then true else c_pfs c) (c_type c)) (configs cs) = configs cs).
      { apply set_nth_id. rewrite N. f_equal. destruct c; cbn in *. subst. f_equal; cbn. }
      rewrite E. split; [|split; [exact Ic | exists []; rewrite app_nil_r; auto]].
      split; [reflexivity|]. split; [reflexivity|]. split; [exact I3|]. cbn [config_lookup configs]. split; [|exact I5].
      exact I4.
    - cbn [obindo]. eexists. split; [reflexivity|]. cbn [configs]. split; [|split; [apply in_or_app; cbn; auto | exists [c]; auto]].
      split; [reflexivity|]. split; [reflexivity|]. split; [exact I3|]. cbn [config_lookup configs]. split.
      + intros c0 j [H|H].
        * inversion H; subst. rewrite nth_error_app2, Nat.sub_diag by lia. reflexivity.
        * specialize (I4 _ _ H). rewrite nth_error_app1; auto. apply nth_error_Some. congruence.
      + intros c0 H. apply in_app_iff in H. destruct H as [H|[H|[]]]; [auto | subst; eauto].
  Qed.

  (** ** Closures *)
  Inductive qr : position -> list lexer_action -> position -> Prop :=
  | qr_nil : forall p, qr p [] p
  | qr_cons : forall p xs q ys r, quiet_step a p xs q -> qr q ys r -> qr p (xs ++ ys) r.
  Lemma qr_snoc p xs q ys r : qr p xs q -> quiet_step a q ys r -> qr p (xs ++ ys) r.
  Proof.
    induction 1 as [p|p xs q zs r' H Q IH]; intros S.
    - rewrite <- (app_nil_r ys). cbn. econstructor; [exact S | constructor].
    - rewrite <- app_assoc. econstructor; eauto.
  Qed.
  Definition kept (p : position) : Prop :=
    exists s, state_at a (fst p) = Some s /\ ((is_stop s /\ snd p = []) \/ (~ is_stop s /\ st_eps_only s = false)).

  Lemma stop_dec (s : atn_state) : {is_stop s} + {~ is_stop s}.
  Proof. unfold is_stop. destruct (st_type s); auto; right; discriminate. Qed.

  Lemma quiet_sound p xs q : sound_pos p -> quiet_step a p xs q -> sound_pos q.
  Proof.
    intros (E & F) H. destruct H as [i st s g n H N I|i st s g f r p H N I|i f st s H N|i s g d r k p x H N I X|i f st s g d r k p H N I]; cbn in *.
    - apply FM in H. destruct H as (_ & _ & H). apply H in I. split; cbn; auto. apply I.
    - apply FM in H. destruct H as (_ & _ & H). apply H in I. split; cbn; auto; [apply I|]. constructor; auto. apply I.
    - inversion F; subst. split; auto.
    - apply FM in H. destruct H as (_ & _ & H). apply H in I. split; cbn; auto. apply I.
    - apply FM in H. destruct H as (_ & _ & H). apply H in I. split; cbn; auto. apply I.
  Qed.
  Lemma qr_sound p xs q : sound_pos p -> qr p xs q -> sound_pos q.
  Proof. intros S H. induction H; auto. apply IHqr. eapply quiet_sound; eauto. Qed.

  (** where a transition that consumes nothing leads *)
  Definition tgt (t : transition) (st : list Z) : option position :=
    match t with
    | Epsilon g _ => Some (g, st)
    | RuleTr g f _ _ => Some (g, f :: st)
    | Action g _ _ _ _ => Some (g, st)
    | _ => None
    end.
  Lemma step_tgt i st s xs q : state_at a i = Some s -> ~ is_stop s -> quiet_step a (i, st) xs q ->
    exists t, In t (st_trans s) /\ tgt t st = Some q.
  Proof.
    intros E N H. inversion H; subst; try (match goal with X : state_at a i = Some ?s' |- _ => rewrite E in X; inversion X; subst s' end; try contradiction);
      eexists; (split; [eassumption | reflexivity]).
  Qed.

  (** a configuration that has passed a non-greedy decision, or may do so before the next character *)
  Definition strays (c : lconfig) (p : position) : Prop :=
    lt_passed (c_type c) = true \/ exists xs q, qr p xs q /\ nongreedy_at a q.
  Definition passes (p : position) (c d : lconfig) : Prop := lt_passed (c_type d) = true -> strays c p.
  Lemma cloned_flag c s : lt_passed (c_type (cloned c s)) = true -> lt_passed (c_type c) = true \/ nongreedy_state s.
  Proof.
    unfold cloned, check_non_greedy_decision, nongreedy_state. cbn. destruct (lt_passed (c_type c)); [auto|].
    destruct (st_type s); try discriminate. auto.
  Qed.
  Lemma cloned_passes c p xs i st s : state_at a i = Some s -> quiet_step a p xs (i, st) -> passes p c (cloned c s).
  Proof.
    intros E S F. apply cloned_flag in F. destruct F as [F|F]; [left; exact F | right].
    exists (xs ++ []), (i, st). split; [econstructor; [exact S | constructor]|]. exists s. auto.
  Qed.
  Lemma strays_step p xs q c d : quiet_step a p xs q -> passes p c d -> strays d q -> strays c p.
  Proof.
    intros S P [F|(ys & q' & Q & N)]; [apply P, F|]. right. exists (xs ++ ys), q'. split; [econstructor; eauto | exact N].
  Qed.
  Lemma passes_trans p xs q c d e : quiet_step a p xs q -> passes p c d -> passes q d e -> passes p c e.
  Proof. intros S P Q F. eapply strays_step; eauto. Qed.
  Lemma greedy_straight c p : greedy a -> lt_passed (c_type c) = false -> ~ strays c p.
  Proof.
    intros G F [F'|(xs & q & _ & s & E & N)]; [congruence|]. specialize (G _ _ E). unfold nongreedy_state in N.
    destruct (st_type s); try contradiction. congruence.
  Qed.

  Lemma epsilon_total c i st s t cs sp (l : lexer) : cfg c (i, st) -> sound_pos (i, st) -> state_at a i = Some s -> ~ is_stop s ->
    In t (st_trans s) ->
    exists oc, get_epsilon_target D U a sempred actions_hash c t cs sp false l = Val (oc, cs, l) /\
      match oc, tgt t st with
      | Some c', Some q => cfg c' q /\ c_alt c' = c_alt c /\ passes (i, st) c c' /\
          exists xs, quiet_step a (i, st) xs q /\ acts c' = acts c ++ map bare xs
      | None, None => True
      | _, _ => False
      end.
  Proof.
    intros C (S1 & S2) E N I. destruct (proj2 (proj2 FM) i s E) as (_ & _ & W). specialize (W t I).
    destruct W as (W1 & W2 & W3 & W4). unfold exists_state in W1. destruct (state_at a (get_target t)) as [s'|] eqn:E'; [|congruence].
    unfold get_epsilon_target. rewrite (state_of_ok _ _ E'). cbn [obindo].
    assert (C0 := C). destruct C as (C1 & C2 & C3 & C4 & C5). cbn in C1, C2.
    assert (NM := number _ _ E').
    destruct t as [g lb|g f r p|g n|g x y|g dep r k p|g ss|g ss|g|g dep r p|g p]; cbn [get_target] in *; cbn [tgt];
      try (eexists; split; [reflexivity|]; exact Logic.I); try contradiction.
    - rewrite C2. cbn [unwrap obindo]. eexists. split; [reflexivity|]. unfold cloned_with_new_ctx. cbn.
      split; [repeat split; cbn; auto|]. split; [reflexivity|]. split; [eapply (cloned_passes c (i, st) _ _ (f :: st) s' E'); eapply step_call; eauto|].
      exists []. split; [econstructor; eauto | cbn; rewrite app_nil_r; reflexivity].
    - eexists. split; [reflexivity|]. split; [repeat split; cbn; auto|]. split; [reflexivity|].
      split; [eapply (cloned_passes c (i, st) _ _ st s' E'); eapply step_epsilon; eauto|].
      exists []. split; [econstructor; eauto | cbn; rewrite app_nil_r; reflexivity].
    - rewrite C2. destruct st as [|f st].
      + cbn [ctx_of has_empty_path EMPTY pc_length get_return_state obindo]. rewrite Z.eqb_refl.
        unfold item in W4. unfold vget. destruct (k <? 0) eqn:Ek; [congruence|]. destruct (nth_error (lexer_actions a) (Z.to_nat k)) as [x|] eqn:Ex; [|congruence].
        cbn [unwrap obindo]. eexists. split; [reflexivity|]. unfold cloned_with_new_exec. cbn.
        split; [repeat split; cbn; auto|]. split; [reflexivity|].
        assert (Sx : quiet_step a (i, []) [x] (g, [])) by (eapply step_action; eauto; unfold item; rewrite Ek; exact Ex).
        split; [eapply (cloned_passes c (i, []) _ _ _ s' E'); exact Sx|].
        exists [x]. split; [eapply step_action; eauto; unfold item; rewrite Ek; exact Ex|].
        unfold acts. cbn. unfold new_copy_append. destruct (lt_exec (c_type c)) as [e|]; cbn; rewrite ?map_app; reflexivity.
      + cbn [ctx_of has_empty_path pc_length get_return_state obindo]. inversion S2; subst.
        apply state_lt in H1. apply Z.eqb_neq in H1. rewrite H1. cbn [obindo].
        eexists. split; [reflexivity|]. split; [repeat split; cbn; auto|]. split; [reflexivity|].
        split; [eapply (cloned_passes c (c_state c, f :: st) _ _ (f :: st) s' E'); eapply step_inner_action; eauto|].
        exists []. split; [eapply step_inner_action; eauto | cbn; rewrite app_nil_r; reflexivity].
  Qed.

  (** what a closure adds, and that it adds everything, unless it goes through a non-greedy decision and
      the end of the rule has been reached *)
  Definition from (c : lconfig) (p : position) (d : lconfig) : Prop :=
    c_alt d = c_alt c /\ passes p c d /\ exists q xs, qr p xs q /\ kept q /\ cfg d q /\ acts d = acts c ++ map bare xs.
  Definition present (cs : list lconfig) (alt : Z) (q : position) : Prop := exists d, In d cs /\ cfg d q /\ c_alt d = alt.
  Definition accepted (cs : list lconfig) (alt : Z) : Prop := exists i s, present cs alt (i, []) /\ state_at a i = Some s /\ is_stop s.
  (** the flag says that the end of the rule has been reached *)
  Definition flagged (alt : Z) (r : bool) (cs : lset) (r' : bool) (cs' : lset) : Prop :=
    (r = true -> r' = true) /\ ((r = true -> accepted (configs cs) alt) -> r' = true -> accepted (configs cs') alt).
  Definition closed (c : lconfig) (p : position) (r : bool) (cs : lset) (r' : bool) (cs' : lset) : Prop :=
    set_inv cs' /\ exists new, configs cs' = configs cs ++ new /\ Forall (from c p) new /\ flagged (c_alt c) r cs r' cs' /\
      (forall q xs, qr p xs q -> kept q -> present (configs cs') (c_alt c) q \/ (r' = true /\ strays c p)).
  Lemma flagged_refl alt r cs : flagged alt r cs r cs.
  Proof. split; auto. Qed.
  Lemma flagged_trans alt r cs r1 cs1 r2 cs2 : flagged alt r cs r1 cs1 -> flagged alt r1 cs1 r2 cs2 -> flagged alt r cs r2 cs2.
  Proof. intros (A & B) (C & E). split; auto. Qed.

  Lemma from_step c p d q xs e : c_alt d = c_alt c -> passes p c d -> quiet_step a p xs q -> acts d = acts c ++ map bare xs ->
    from d q e -> from c p e.
  Proof.
    intros A P S X (A' & P' & r & ys & Q & K & C & X'). split; [congruence|]. split; [eapply passes_trans; eauto|].
    exists r, (xs ++ ys). split; [econstructor; eauto|]. split; [exact K|]. split; [exact C|].
    rewrite X', X, map_app, app_assoc. reflexivity.
  Qed.
  Lemma accepted_app cs new alt : accepted cs alt -> accepted (cs ++ new) alt.
  Proof.
    intros (i & s & (d & I & H) & E). exists i, s. split; [|exact E]. exists d. split; [apply in_or_app; auto | exact H].
  Qed.
  Lemma present_app cs new alt q : present cs alt q -> present (cs ++ new) alt q.
  Proof. intros (d & I & H). exists d. split; [apply in_or_app; auto | exact H]. Qed.

  Lemma each_closed sp c i st s rec : cfg c (i, st) -> sound_pos (i, st) -> state_at a i = Some s -> ~ is_stop s ->
    (forall c' q r cs l r' cs' l', cfg c' q -> sound_pos q -> set_inv cs -> rec c' (r, cs, l) = Val (r', cs', l') -> l' = l /\ closed c' q r cs r' cs') ->
    forall ts, incl ts (st_trans s) -> forall r cs l r' cs' l', set_inv cs ->
      closure_each U (closure_trans D U a sempred actions_hash rec c sp false) ts (r, cs, l) = Val (r', cs', l') ->
      l' = l /\ set_inv cs' /\ exists new, configs cs' = configs cs ++ new /\ Forall (from c (i, st)) new /\ flagged (c_alt c) r cs r' cs' /\
        (forall t q ys q', In t ts -> tgt t st = Some q -> qr q ys q' -> kept q' ->
           present (configs cs') (c_alt c) q' \/ (r' = true /\ strays c (i, st))).
  Proof.
    intros C S E N Hrec. induction ts as [|t ts IH]; intros Inc r cs l r' cs' l' I H; cbn [closure_each] in H.
    - inversion H; subst. split; [reflexivity|]. split; [exact I|]. exists []. rewrite app_nil_r. split; [reflexivity|]. split; [constructor|].
      split; [apply flagged_refl|]. intros t q ys q' [].
    - step H st1 E1. destruct st1 as [[r1 cs1] l1]. unfold closure_trans in E1.
      destruct (epsilon_total c i st s t cs sp l C S E N (Inc t (or_introl eq_refl))) as (oc & Eoc & M). rewrite Eoc in E1. cbn [obindo] in E1.
      assert (G : l1 = l /\ set_inv cs1 /\ exists new, configs cs1 = configs cs ++ new /\ Forall (from c (i, st)) new /\ flagged (c_alt c) r cs r1 cs1 /\
        (forall q ys q', tgt t st = Some q -> qr q ys q' -> kept q' -> present (configs cs1) (c_alt c) q' \/ (r1 = true /\ strays c (i, st)))).
      { destruct oc as [c'|], (tgt t st) as [q|] eqn:Et; try contradiction.
        - destruct M as (M1 & M2 & M3 & xs & M4 & M5).
          destruct (Hrec c' q r cs l r1 cs1 l1 M1 (quiet_sound _ _ _ S M4) I E1) as (-> & I1 & new & N1 & N2 & Fl & N3).
          split; [reflexivity|]. split; [exact I1|]. exists new. split; [exact N1|]. split; [|split].
          + eapply Forall_impl; [|exact N2]. intros d F. eapply from_step; eauto.
          + rewrite <- M2. exact Fl.
          + intros q0 ys q' Eq Q K. inversion Eq; subst q0. rewrite <- M2. destruct (N3 _ _ Q K) as [X|(X & Y)]; [left; exact X | right].
            split; [exact X|]. eapply strays_step; eauto.
        - inversion E1; subst. split; [reflexivity|]. split; [exact I|]. exists []. rewrite app_nil_r. split; [reflexivity|]. split; [constructor|].
          split; [apply flagged_refl|]. intros; discriminate. }
      destruct G as (-> & I1 & new & N1 & N2 & Fl & N3).
      destruct (IH (fun t' Ht => Inc t' (or_intror Ht)) _ _ _ _ _ _ I1 H) as (-> & I2 & new2 & N4 & N5 & Fl2 & N6).
      split; [reflexivity|]. split; [exact I2|]. exists (new ++ new2). split; [rewrite N4, N1, app_assoc; reflexivity|].
      split; [apply Forall_app; auto|]. split; [eapply flagged_trans; eauto|]. intros t' q ys q' [<-|It] T Q K.
      + destruct (N3 _ _ _ T Q K) as [X|(X & Y)]; [left; rewrite N4; apply present_app, X | right; split; [apply Fl2, X | exact Y]].
      + eapply N6; eauto.
  Qed.

  Lemma passes_refl c p : passes p c c.
  Proof. intros F. left. exact F. Qed.
  Lemma from_here c p : cfg c p -> kept p -> from c p c.
  Proof.
    intros C K. split; [reflexivity|]. split; [apply passes_refl|]. exists p, []. split; [constructor|]. split; [exact K|].
    split; [exact C|]. rewrite app_nil_r. reflexivity.
  Qed.
  Lemma stop_qr i s xs q : state_at a i = Some s -> is_stop s -> qr (i, []) xs q -> q = (i, []).
  Proof.
    intros E St Q. inversion Q as [|p0 xs0 q0 ys0 r0 H]; subst; [reflexivity|].
    inversion H; subst; match goal with X : state_at a i = Some ?s' |- _ => rewrite E in X; inversion X; subst s' end; contradiction.
  Qed.
  Lemma stop_step i s f st xs q : state_at a i = Some s -> is_stop s -> quiet_step a (i, f :: st) xs q -> xs = [] /\ q = (f, st).
  Proof.
    intros E St H. inversion H; subst; try (match goal with X : state_at a i = Some ?s' |- _ => rewrite E in X; inversion X; subst s' end; contradiction).
    auto.
  Qed.

  Lemma closure_ok fuel : forall sp c p r cs l r' cs' l', cfg c p -> sound_pos p -> set_inv cs ->
    closure D U a sempred ctx_hash actions_hash fuel sp false c (r, cs, l) = Val (r', cs', l') -> l' = l /\ closed c p r cs r' cs'.
  Proof.
    induction fuel as [|fuel IH]; intros sp c [i st] r cs l r' cs' l' C S I H; [discriminate|].
    cbn [closure] in H. step H s Es. assert (C' := C). destruct C' as (C1 & C2 & C3 & C4 & C5). cbn [fst snd] in *. rewrite C1 in Es.
    apply state_of_val in Es. destruct (stop_dec s) as [St|St].
    - assert (Ht : st_type s = RuleStopState) by exact St. rewrite Ht in H. unfold closure_stop in H. rewrite C2 in H.
      destruct st as [|f st].
      + change (has_empty_path (ctx_of [])) with (Val true) in H. change (pc_is_empty (ctx_of [])) with (Val true) in H. cbn [obindo andb] in H.
        destruct (add_total cs c (i, []) I C) as (cs1 & E1 & I1 & In1 & new & N1 & N2). rewrite E1 in H. cbn [obindo] in H. inversion H; subst cs1 l' r'.
        split; [reflexivity|]. split; [exact I1|]. exists new. split; [exact N1|].
        assert (K : kept (i, [])) by (exists s; auto). assert (Pr : present (configs cs') (c_alt c) (i, [])) by (exists c; auto). split; [|split].
        * destruct N2; subst new; constructor; [|constructor]. apply from_here; auto.
        * split; [auto|]. intros _ _. exists i, s. auto.
        * intros q xs Q _. left. apply (stop_qr _ _ _ _ Es St) in Q. subst q. exact Pr.
      + assert (F : exists_state a f) by (destruct S as (_ & S2); inversion S2; auto).
        assert (F' := state_lt _ F). apply Z.eqb_neq in F'.
        cbn [ctx_of has_empty_path pc_length get_return_state obindo pc_is_empty] in H. unfold singleton_is_empty in H. rewrite F' in H.
        cbn [andb obindo seq closure_each] in H. step H st1 E1. inversion H; subst st1; clear H.
        unfold closure_return in E1. cbn [get_return_state obindo get_parent] in E1. rewrite F' in E1.
        unfold exists_state in F. destruct (state_at a f) as [s'|] eqn:Ef; [|congruence]. rewrite (state_of_ok _ _ Ef) in E1. cbn [obindo] in E1.
        assert (Q : quiet_step a (i, f :: st) [] (f, st)) by (econstructor; eauto).
        assert (Cn : cfg (cloned_with_new_ctx c s' (Some (ctx_of st))) (f, st)).
        { repeat split; cbn; auto. apply (number _ _ Ef). }
        destruct (IH _ _ _ _ _ _ _ _ _ Cn (quiet_sound _ _ _ S Q) I E1) as (-> & I1 & new & N1 & N2 & Fl & N3).
        split; [reflexivity|]. split; [exact I1|]. exists new. split; [exact N1|].
        assert (P : passes (i, f :: st) c (cloned_with_new_ctx c s' (Some (ctx_of st)))) by (apply (cloned_passes c _ _ _ _ _ Ef Q)). split; [|split; [exact Fl|]].
        * eapply Forall_impl; [|exact N2]. intros d Hd. eapply from_step; [| |exact Q| |exact Hd]; auto. cbn. rewrite app_nil_r. reflexivity.
        * intros q xs Hq K. inversion Hq as [|p0 xs0 q0 ys0 r0 H1 H2]; subst.
          { destruct K as (s2 & K1 & [(K2 & K3)|(K2 & _)]); cbn in *; [discriminate|]. rewrite Es in K1. inversion K1; subst. contradiction. }
          destruct (stop_step _ _ _ _ _ _ Es St H1) as (-> & ->). change (c_alt c) with (c_alt (cloned_with_new_ctx c s' (Some (ctx_of st)))).
          destruct (N3 _ _ H2 K) as [X|(X & Y)]; [left; exact X | right]. split; [exact X|]. eapply strays_step; eauto.
    - assert (H' : (let! cs := if negb (st_eps_only s) && (negb r || negb (lt_passed (c_type c))) then add ctx_hash cs c else Val cs in
            closure_each U (closure_trans D U a sempred actions_hash (closure D U a sempred ctx_hash actions_hash fuel sp false) c sp false)
              (st_trans s) (r, cs, l)) = Val (r', cs', l')).
      { unfold is_stop in St. destruct (st_type s); try exact H. congruence. }
      clear H. step H' cs1 E1.
      assert (A : set_inv cs1 /\ exists new, configs cs1 = configs cs ++ new /\ Forall (from c (i, st)) new /\
                (kept (i, st) -> present (configs cs1) (c_alt c) (i, st) \/ (r = true /\ strays c (i, st)))).
      { destruct (negb (st_eps_only s) && (negb r || negb (lt_passed (c_type c)))) eqn:B.
        - destruct (add_total cs c (i, st) I C) as (cs2 & E2 & I1 & In1 & new & N1 & N2). rewrite E2 in E1. inversion E1; subst cs2.
          split; [exact I1|]. exists new. split; [exact N1|]. split; [|intros; left; exists c; auto].
          destruct N2; subst new; constructor; [|constructor]. apply from_here; auto. exists s. split; [exact Es|]. right. split; [exact St|].
          destruct (st_eps_only s); [discriminate | reflexivity].
        - inversion E1; subst cs1. split; [exact I|]. exists []. rewrite app_nil_r. split; [reflexivity|]. split; [constructor|].
          intros (s2 & K1 & K2). cbn in *. rewrite Es in K1. inversion K1; subst s2. destruct K2 as [(K2 & _)|(_ & K2)]; [contradiction|].
          right. unfold strays. rewrite K2 in B. destruct r, (lt_passed (c_type c)); try discriminate B. auto. }
      destruct A as (I1 & new & N1 & N2 & N3).
      destruct (each_closed sp c i st s _ C S Es St (IH sp) (st_trans s) (incl_refl _) _ _ _ _ _ _ I1 H') as (-> & I2 & new2 & N4 & N5 & Fl & N6).
      split; [reflexivity|]. split; [exact I2|]. exists (new ++ new2). split; [rewrite N4, N1, app_assoc; reflexivity|].
      split; [apply Forall_app; auto|]. split.
      { eapply flagged_trans; [|exact Fl]. split; [auto|]. intros A B. rewrite N1. apply accepted_app. auto. }
      intros q xs Q K. inversion Q as [|p0 xs0 q0 ys0 r0 H1 H2]; subst.
      + destruct (N3 K) as [X|(X & Y)]; [left; rewrite N4; apply present_app, X | right; split; [apply Fl, X | exact Y]].
      + destruct (step_tgt _ _ _ _ _ Es St H1) as (t & It & Et). eapply N6; eauto.
  Qed.

  (** ** One more character *)
  Lemma match_symbol t x : set_ok t -> is_call t = false ->
    exists b, get_reachable_target t x = Val (if b : bool then Some (get_target t) else None) /\
      (b = true -> symbols t 0 1114111 x) /\ (ordinary_char x -> symbols t 0 1114111 x -> b = true).
  Proof.
    intros W Nc. unfold get_reachable_target. destruct (is_call t) eqn:Ec; [discriminate|]. clear Nc.
    assert (M := matches_ok t LEXER_MIN_CHAR_VALUE LEXER_MAX_CHAR_VALUE x W).
    destruct t; try discriminate;
      try (destruct M as (b & Eb & Hb); rewrite Eb; cbn [obindo]; exists b; split; [reflexivity|]; split; intros; apply Hb; assumption).
    cbn [matches obindo]. eexists. split; [reflexivity|]. unfold LEXER_MIN_CHAR_VALUE, LEXER_MAX_CHAR_VALUE, ordinary_char. cbn [symbols]. split; lia.
  Qed.

  (** [d] stems from [c] by consuming [t] *)
  Definition steps_from (t : Z) (c d : lconfig) : Prop :=
    c_alt d = c_alt c /\ exists p p' q xs, cfg c p /\ char_step a p t p' /\ qr p' xs q /\ kept q /\ cfg d q /\
      acts d = acts c ++ map bare xs /\ (lt_passed (c_type d) = true -> strays c p').
  Definition all_steps (t : Z) (c : lconfig) (cs : list lconfig) : Prop :=
    ordinary_char t ->
    forall p p' q xs, cfg c p -> char_step a p t p' -> qr p' xs q -> kept q ->
      present cs (c_alt c) q \/ (accepted cs (c_alt c) /\ strays c p').
  Definition placed (c : lconfig) : Prop := exists p, cfg c p /\ sound_pos p /\ kept p.

  Lemma char_sound p c q : sound_pos p -> char_step a p c q -> sound_pos q.
  Proof.
    intros (E & F) H. destruct H as [i st s t c H N I Sy]. cbn in *. apply FM in H. destruct H as (_ & _ & H). apply H in I. split; cbn; auto. apply I.
  Qed.
  Lemma steps_placed t c d : placed c -> steps_from t c d -> placed d.
  Proof.
    intros (p0 & C0 & S0 & _) (_ & p & p' & q & xs & C & St & Q & K & Cd & _). rewrite (cfg_same _ _ _ C C0) in *.
    exists q. split; [exact Cd|]. split; [|exact K]. eapply qr_sound; [|exact Q]. eapply char_sound; eauto.
  Qed.

  Lemma reach_trans_ok fuel si t c r s cs l r' cs' l' : placed c -> state_at a (c_state c) = Some s -> set_inv cs ->
    (r = true -> accepted (configs cs) (c_alt c)) ->
    reach_trans D U a sempred ctx_hash actions_hash fuel si t c r (st_trans s) cs l = Val (r', cs', l') ->
    l' = l /\ set_inv cs' /\ exists new, configs cs' = configs cs ++ new /\ Forall (steps_from t c) new /\ all_steps t c (configs cs') /\
      (t = EOF -> new = []) /\ (r' = true -> accepted (configs cs') (c_alt c)).
  Proof.
    intros (p & C & S & K) E I Ac H.
    assert (No : st_trans s = [] \/ is_stop s -> r' = false /\ l' = l /\ configs cs' = configs cs /\ set_inv cs' ->
      l' = l /\ set_inv cs' /\ exists new, configs cs' = configs cs ++ new /\ Forall (steps_from t c) new /\ all_steps t c (configs cs') /\ (t = EOF -> new = []) /\
      (r' = true -> accepted (configs cs') (c_alt c))).
    { intros X (-> & -> & E1 & I1). split; [reflexivity|]. split; [exact I1|]. exists []. rewrite app_nil_r. split; [exact E1|]. split; [constructor|].
      split; [|split; [auto | discriminate]]. intros _ p0 p' q xs C0 St _ _. destruct St as [i st s0 tr x H1 H2 H3 H4]. destruct C0 as (C0 & _). cbn in C0.
      rewrite C0, H1 in E. inversion E; subst. destruct X as [X|X]; [rewrite X in H3; contradiction | contradiction]. }
    destruct (proj2 (proj2 FM) _ _ E) as (Nm & Sh & W). destruct Sh as [(St & Oe)|[(St & Ee & _)|(St & Ee & [Nil|(tr & One & Co)])]].
    - apply No; [auto|]. clear No K E W Nm.
      assert (G : r' = false /\ cs' = cs /\ l' = l).
      { induction (st_trans s) as [|tr ts IH]; cbn [reach_trans] in H; [inversion H; auto|].
        destruct (Oe tr (or_introl eq_refl)) as (g & n & ->). cbn in H. apply IH; auto. intros t0 Ht. apply Oe. right. exact Ht. }
      destruct G as (-> & -> & ->). auto.
    - exfalso. destruct C as (C & _). destruct K as (s' & K1 & K2). rewrite <- C, E in K1. inversion K1; subst s'.
      destruct K2 as [(K2 & _)|(_ & K2)]; [contradiction | congruence].
    - apply No; [auto|]. rewrite Nil in H. cbn in H. inversion H. subst. auto.
    - clear No. rewrite One in H. cbn [reach_trans] in H. specialize (W tr). rewrite One in W. specialize (W (or_introl eq_refl)).
      destruct W as (W1 & W2 & W3 & _). assert (Nc : is_call tr = false) by (destruct tr; try reflexivity; contradiction).
      destruct (match_symbol tr t W2 Nc) as (b & Eb & B1 & B2). rewrite Eb in H. cbn [obindo] in H. destruct b.
      + unfold exists_state in W1. destruct (state_at a (get_target tr)) as [s'|] eqn:Et; [|congruence].
        rewrite (state_of_ok _ _ Et) in H. cbn [obindo] in H. step H hc Ec. destruct hc as [[hit cs1] l1].
        set (exec := option_map (fun e => fix_offset_before_match e (is_index (lx_input U l) - si)) (lt_exec (c_type c))) in *.
        assert (Te : t <> EOF). { intros ->. apply W3. apply B1. reflexivity. }
        apply Z.eqb_neq in Te. rewrite Te in Ec. apply Z.eqb_neq in Te.
        destruct p as [i st]. assert (C' := C). destruct C as (C1 & C2 & C3 & C4 & C5). cbn [fst snd] in *.
        assert (Ce : char_step a (i, st) t (get_target tr, st)).
        { econstructor; [rewrite <- C1; exact E | exact St | rewrite One; cbn; auto | auto]. }
        assert (Cn : cfg (cloned_with_new_exec c s' exec) (get_target tr, st)).
        { repeat split; cbn; auto. apply (number _ _ Et). }
        destruct (closure_ok _ _ _ _ _ _ _ _ _ _ Cn (char_sound _ _ _ S Ce) I Ec) as (-> & I1 & new & N1 & N2 & Fl & N3).
        assert (Eo : (r', l', cs') = (hit, l, cs1)) by (destruct hit; inversion H; reflexivity). inversion Eo; subst; clear Eo H.
        split; [reflexivity|]. split; [exact I1|]. exists new. split; [exact N1|].
        assert (Pn : strays (cloned_with_new_exec c s' exec) (get_target tr, st) -> strays c (get_target tr, st)).
        { intros [F|F]; [|right; exact F]. apply (cloned_flag c s') in F. destruct F as [F|F]; [left; exact F | right].
          exists [], (get_target tr, st). split; [constructor|]. exists s'. auto. }
        split; [|split; [|split; [congruence|]]].
        * eapply Forall_impl; [|exact N2]. intros d (A1 & A2 & q & xs & A3 & A4 & A5 & A6). split; [exact A1|].
          exists (c_state c, st), (get_target tr, st), q, xs. do 5 (split; [assumption|]). split; [|intros F; apply Pn, A2, F].
          rewrite A6. f_equal. unfold acts, exec. cbn. destruct (lt_exec (c_type c)) as [e|]; cbn; [|reflexivity].
          rewrite map_map. apply map_ext. intros x. apply bare_fix.
        * intros O p p' q xs Cp Cs Q Kq. assert (Ep := cfg_same _ _ _ Cp C'). subst p.
          inversion Cs as [i0 st0 s0 tr0 c0 H1 H2 H3 H4]; subst. rewrite E in H1. inversion H1; subst s0. rewrite One in H3.
          destruct H3 as [<-|[]]. change (c_alt c) with (c_alt (cloned_with_new_exec c s' exec)).
          destruct (N3 _ _ Q Kq) as [X|(X & Y)]; [left; exact X | right]. split; [|apply Pn, Y]. apply Fl; auto.
        * intros X. apply Fl; auto.
      + inversion H; subst. split; [reflexivity|]. split; [exact I|]. exists []. rewrite app_nil_r. split; [reflexivity|]. split; [constructor|].
        split; [|split; [auto | discriminate]]. intros O p0 p' q xs Cp Cs Q Kq. inversion Cs as [i0 st0 s0 tr0 c0 H1 H2 H3 H4]; subst.
        destruct Cp as (Cp & _). cbn in Cp. rewrite Cp, H1 in E. inversion E; subst s0. rewrite One in H3. destruct H3 as [<-|[]].
        specialize (B2 O H4). discriminate.
  Qed.

  Lemma present_mono cs cs' new alt q : cs' = cs ++ new -> present cs alt q -> present cs' alt q.
  Proof. intros ->. apply present_app. Qed.

  Lemma accepted_mono cs cs' new alt : cs' = cs ++ new -> accepted cs alt -> accepted cs' alt.
  Proof. intros ->. apply accepted_app. Qed.

  Lemma reach_ok fuel si t cl : forall sk cs l cs' l', Forall placed cl -> set_inv cs -> Forall (fun c => 0 < c_alt c) cl ->
    (0 < sk -> accepted (configs cs) sk) ->
    reach_loop D U a sempred ctx_hash actions_hash fuel si t cl sk cs l = Val (cs', l') ->
    l' = l /\ set_inv cs' /\ exists news, configs cs' = configs cs ++ concat news /\
      Forall2 (fun c new => Forall (steps_from t c) new) cl news /\ Forall (fun c => all_steps t c (configs cs')) cl /\ (t = EOF -> concat news = []).
  Proof.
    induction cl as [|c cl IH]; intros sk cs l cs' l' P I G Sk H; cbn [reach_loop] in H.
    - inversion H; subst. split; [reflexivity|]. split; [exact I|]. exists []. cbn. rewrite app_nil_r. auto.
    - inversion P as [|c0 cl0 Pc Pcl]; subst. clear P.
      inversion G as [|c0 cl0 Gc Gcl]; subst. clear G.
      destruct ((c_alt c =? sk) && lt_passed (c_type c)) eqn:B.
      + destruct (IH _ _ _ _ _ Pcl I Gcl Sk H) as (-> & I1 & news & N1 & N2 & N3 & N4).
        split; [reflexivity|]. split; [exact I1|]. exists ([] :: news). split; [exact N1|]. split; [constructor; auto|]. split; [|exact N4].
        constructor; auto. apply andb_true_iff in B. destruct B as (B1 & B2). apply Z.eqb_eq in B1. intros _ p p' q xs _ _ _ _. right.
        split; [|left; exact B2]. eapply accepted_mono; [exact N1|]. rewrite B1. apply Sk. lia.
      + step H s Es. apply state_of_val in Es. step H hc Eh. destruct hc as [[hit cs1] l1].
        assert (Ac : (c_alt c =? sk) = true -> accepted (configs cs) (c_alt c)) by (intros X; apply Z.eqb_eq in X; rewrite X; apply Sk; lia).
        destruct (reach_trans_ok _ _ _ _ _ _ _ _ _ _ _ Pc Es I Ac Eh) as (-> & I1 & new & N1 & N2 & N3 & N4 & N5).
        assert (Sk1 : 0 < (if hit then c_alt c else sk) -> accepted (configs cs1) (if hit then c_alt c else sk)).
        { destruct hit; [auto|]. intros X. eapply accepted_mono; [exact N1 | auto]. }
        destruct (IH _ _ _ _ _ Pcl I1 Gcl Sk1 H) as (-> & I2 & news & M1 & M2 & M3 & M4).
        split; [reflexivity|]. split; [exact I2|]. exists (new :: news). cbn [concat].
        split; [rewrite M1, N1, app_assoc; reflexivity|]. split; [constructor; auto|]. split.
        * constructor; auto. intros O p p' q xs A1 A2 A3 A4. destruct (N3 O _ _ _ _ A1 A2 A3 A4) as [X|(X & Y)].
          { left. eapply present_mono; [exact M1 | exact X]. }
          { right. split; [eapply accepted_mono; [exact M1 | exact X] | exact Y]. }
        * intros Et. rewrite (N4 Et), (M4 Et). reflexivity.
  Qed.

  (** ** Start states *)
  Definition start_cfg (t : transition) (alt : Z) : lconfig := new_lexer_atnconfig6 (get_target t) alt EMPTY.
  Lemma start_ok fuel ts : forall i cs l cs' l', Forall (fun t => exists_state a (get_target t)) ts -> set_inv cs ->
    start_loop D U a sempred ctx_hash actions_hash fuel ts i cs l = Val (cs', l') ->
    l' = l /\ set_inv cs' /\ exists news, configs cs' = configs cs ++ concat news /\ length news = length ts /\
      (forall k t new, nth_error ts k = Some t -> nth_error news k = Some new ->
         Forall (from (start_cfg t (i + 1 + Z.of_nat k)) (get_target t, [])) new) /\
      (forall k t q xs, nth_error ts k = Some t -> qr (get_target t, []) xs q -> kept q ->
         present (configs cs') (i + 1 + Z.of_nat k) q \/
         (accepted (configs cs') (i + 1 + Z.of_nat k) /\ strays (start_cfg t (i + 1 + Z.of_nat k)) (get_target t, []))).
  Proof.
    induction ts as [|t ts IH]; intros i cs l cs' l' F I H; cbn [start_loop] in H.
    - inversion H; subst. split; [reflexivity|]. split; [exact I|]. exists []. cbn. rewrite app_nil_r. split; [reflexivity|]. split; [reflexivity|].
      split; [intros [|k]; discriminate | intros [|k]; discriminate].
    - inversion F as [|t0 ts0 Ft Fts]; subst. step H hc Eh. destruct hc as [[hit cs1] l1].
      assert (C : cfg (start_cfg t (i + 1)) (get_target t, [])) by (repeat split).
      assert (S : sound_pos (get_target t, [])) by (split; cbn; auto).
      destruct (closure_ok _ _ _ _ _ _ _ _ _ _ C S I Eh) as (-> & I1 & new & N1 & N2 & Fl & N3).
      destruct (IH _ _ _ _ _ Fts I1 H) as (-> & I2 & news & M1 & M2 & M3 & M4).
      split; [reflexivity|]. split; [exact I2|]. exists (new :: news). cbn [concat length].
      split; [rewrite M1, N1, app_assoc; reflexivity|]. split; [congruence|]. split.
      + intros [|k] t' new' Et En; cbn in Et, En.
        * inversion Et; inversion En; subst. rewrite Z.add_0_r. exact N2.
        * replace (i + 1 + Z.of_nat (Datatypes.S k)) with (i + 1 + 1 + Z.of_nat k) by lia. eauto.
      + intros [|k] t' q xs Et Q K; cbn in Et.
        * inversion Et; subst. rewrite Z.add_0_r. destruct (N3 _ _ Q K) as [X|(X & Y)].
          { left. eapply present_mono; [exact M1 | exact X]. }
          { right. split; [|exact Y]. eapply accepted_mono; [exact M1|]. apply Fl; auto. discriminate. }
        * replace (i + 1 + Z.of_nat (Datatypes.S k)) with (i + 1 + 1 + Z.of_nat k) by lia. eauto.
  Qed.
End Match.
