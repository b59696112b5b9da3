(** Proofs about the LL(1) analyzer. *)
From Coq Require Import ZArith List Bool Lia Arith ZifyBool ZifyNat.
From Verif Require ConfigSetModel.
From Verif Require Import Outcome IntervalSetModel IntervalSetSpec IntervalSetProofs SemContextModel PredContextModel
  DfaModel AtnModel AtnSpec AtnProofs Ll1Model Ll1Spec.
Import ListNotations.
Local Open Scope Z_scope.

Lemma reaches_trans : forall a p q r, reaches a p q -> reaches a q r -> reaches a p r.
Proof. intros a p q r H1 H2. induction H2; auto. econstructor; eauto. Qed.
Lemma reaches_one : forall a p q, move a p q -> reaches a p q.
Proof. intros. econstructor; [constructor|auto]. Qed.

Lemma move_inv : forall a i st k' s, move a (i, st) k' -> state_at a i = Some s ->
  (~ is_stop s /\ exists t, In t (st_trans s) /\ ~ consuming t /\ is_call t = false /\ k' = (get_target t, st)) \/
  (~ is_stop s /\ exists g f r p, In (RuleTr g f r p) (st_trans s) /\ k' = (g, f :: st)) \/
  (is_stop s /\ exists f st', st = f :: st' /\ k' = (f, st')).
Proof.
  intros a i st k' s H E. inversion H as [i0 st0 s0 t0 E0 NS0|i0 st0 s0 g f r p E0|i0 f st0 s0 E0]; subst; rewrite E in E0; injection E0 as <-.
  - left. split; auto. exists t0. auto.
  - right. left. split; auto. exists g, f, r, p. auto.
  - right. right. split; auto. eauto.
Qed.

Lemma move_app : forall a i p j q base, move a (i, p) (j, q) -> move a (i, p ++ base) (j, q ++ base).
Proof.
  intros a i p j q base H. inversion H; subst.
  - econstructor; eauto.
  - cbn. econstructor; eauto.
  - cbn. econstructor; eauto.
Qed.
Lemma reaches_app : forall a i p j q base, reaches a (i, p) (j, q) -> reaches a (i, p ++ base) (j, q ++ base).
Proof.
  intros a i p j q base H. remember (i, p) as x eqn:E. remember (j, q) as y eqn:E'. revert i p j q E E'.
  induction H as [|[i1 p1] r H IH M]; intros; subst.
  - injection E' as <- <-. constructor.
  - eapply reaches_move; [eapply IH; eauto|]. apply move_app; auto.
Qed.

(** a path either keeps what was below its start, or finishes the rules above it first *)
Lemma reaches_split : forall a i p base y, reaches a (i, p ++ base) y ->
  (exists q, snd y = q ++ base /\ reaches a (i, p) (fst y, q)) \/
  (exists f base' m s, base = f :: base' /\ reaches a (i, p) (m, []) /\ state_at a m = Some s /\ is_stop s /\ reaches a (f, base') y).
Proof.
  intros a i p base y H. remember (i, p ++ base) as x eqn:E. induction H as [|[j q] r H IH M]; subst.
  - left. exists p. split; auto. constructor.
  - destruct IH as [(q' & E & R) | (f & base' & m & s & E & R & S1 & S2 & R')].
    + cbn in E, R. subst q. inversion M; subst.
      * left. exists q'. split; auto. cbn. eapply reaches_move; eauto. econstructor; eauto.
      * left. exists (f :: q'). split; auto. cbn. eapply reaches_move; eauto. econstructor; eauto.
      * destruct q' as [|f' q'].
        -- cbn in H1. subst base. right. exists f, st, j, s. repeat split; auto. constructor.
        -- cbn in H1. injection H1 as -> ->. left. exists q'. split; auto. cbn. eapply reaches_move; eauto. econstructor; eauto.
    + right. exists f, base', m, s. repeat split; auto. eapply reaches_move; eauto.
Qed.

(** ** Contexts as lists *)
Section Bottom.
Variable b : bool.
Fixpoint to_ctx (st : list Z) : option pctx :=
  match st with
  | [] => if b then Some EMPTY else None
  | f :: st => Some (Singleton f (to_ctx st))
  end.
Lemma to_ctx_some : forall st, b = true -> exists c, to_ctx st = Some c.
Proof. intros [|f st] H; cbn; [rewrite H|]; eauto. Qed.
Lemma to_ctx_eqb : forall st st', opt_pctx_eqb (to_ctx st) (to_ctx st') = true -> st = st'.
Proof.
  induction st as [|f st IH]; intros [|f' st'] H; auto.
  - destruct (to_ctx_some st') as [c Ec]; [cbn in H; destruct b; [reflexivity|discriminate]|].
    cbn [to_ctx] in H. rewrite Ec in H. destruct b; cbn in H; [|discriminate]. rewrite andb_false_r in H. discriminate.
  - destruct (to_ctx_some st) as [c Ec]; [cbn in H; destruct b; [reflexivity|discriminate]|].
    cbn [to_ctx] in H. rewrite Ec in H. destruct b; cbn in H; [|discriminate]. rewrite andb_false_r in H. discriminate.
  - cbn in H. apply andb_true_iff in H. destruct H as [H1 H2]. apply Z.eqb_eq in H1. subst f'. f_equal. apply IH. exact H2.
Qed.
Lemma to_ctx_refl : forall st, opt_pctx_eqb (to_ctx st) (to_ctx st) = true.
Proof.
  induction st as [|f st IH]; cbn; [destruct b; reflexivity|]. rewrite Z.eqb_refl. exact IH.
Qed.

Definition kcfg (k : position) : ConfigSetModel.config unit := busy_config (fst k) (to_ctx (snd k)).
Lemma kcfg_eqb : forall k k', busy_eqb (kcfg k) (kcfg k') = true <-> k = k'.
Proof.
  intros [i st] [i' st']. unfold busy_eqb, ConfigSetModel.config_eqb, kcfg, busy_config. cbn -[opt_pctx_eqb]. rewrite !andb_true_r.
  rewrite andb_true_iff, Z.eqb_eq. split.
  - intros [-> H]. f_equal. apply to_ctx_eqb; auto.
  - intros [= -> ->]. split; auto. apply to_ctx_refl.
Qed.
Lemma busy_in : forall k ks, existsb (busy_eqb (kcfg k)) (map kcfg ks) = true <-> In k ks.
Proof.
  intros k ks. rewrite existsb_exists. split.
  - intros (c & H & E). apply in_map_iff in H. destruct H as (k' & <- & H). apply kcfg_eqb in E. subst; auto.
  - intros H. exists (kcfg k). split; [apply in_map; auto|]. apply kcfg_eqb; auto.
Qed.

Variable a : atn.
Hypothesis wf : well_formed a.

Definition hist (rs : list interval) : interval_set := IS (fold_left (fun l r => add_interval_l r l) rs []) false.
Lemma hist_add : forall rs l, add_set (hist rs) (IS l false) = hist (rs ++ l).
Proof.
  intros rs l. unfold add_set. cbn. revert rs. induction l as [|r l IH]; intros rs; cbn.
  - rewrite app_nil_r. reflexivity.
  - replace (rs ++ r :: l) with ((rs ++ [r]) ++ l) by (rewrite <- app_assoc; reflexivity).
    rewrite <- IH. f_equal. unfold add_interval, hist. cbn. rewrite fold_left_app. reflexivity.
Qed.
Lemma hist_add_ro : forall rs l ro, add_set (hist rs) (IS l ro) = hist (rs ++ l).
Proof. intros rs l ro. rewrite <- hist_add. reflexivity. Qed.
Lemma hist_range : forall rs x y, add_range (hist rs) x y = hist (rs ++ [Iv x y]).
Proof. intros rs x y. unfold add_range, add_interval, hist. cbn. rewrite fold_left_app. reflexivity. Qed.

(** ** Active rules *)
Fixpoint active (i : Z) (pushed : list Z) : list Z :=
  match pushed with [] => [] | f :: st => rule_of a i :: active f st end.
Lemma active_app : forall i p j, rule_of a i = rule_of a j -> active i p = active j p.
Proof. intros i [|f p] j H; cbn; auto. rewrite H; auto. Qed.

Definition in_states (i : Z) : Prop := exists_state a i.
Lemma in_states_range : forall i, in_states i <-> 0 <= i < Z.of_nat (length (states a)).
Proof.
  intros i. unfold in_states, exists_state, state_at. destruct (Z.ltb_spec i 0); [split; [congruence|lia]|].
  rewrite nth_error_Some. lia.
Qed.
Lemma get_state_at : forall i s, state_at a i = Some s -> get_state a i = Val s.
Proof. intros i s H. unfold get_state, vget. unfold state_at in H. rewrite H. reflexivity. Qed.

(** *** a finite universe *)
Definition zs : list Z := map Z.of_nat (seq 0 (length (states a))).
Fixpoint lists (n : nat) : list (list Z) :=
  match n with O => [[]] | S n => [] :: flat_map (fun l => map (fun x => x :: l) zs) (lists n) end.
Lemma zs_in : forall i, In i zs <-> in_states i.
Proof.
  intros i. rewrite in_states_range. unfold zs. rewrite in_map_iff. split.
  - intros (n & <- & H). apply in_seq in H. lia.
  - intros H. exists (Z.to_nat i). split; [lia|]. apply in_seq. lia.
Qed.
Lemma lists_in : forall n l, (length l <= n)%nat -> Forall in_states l -> In l (lists n).
Proof.
  induction n as [|n IH]; intros [|x l] L F; cbn in *; auto; try lia. right. inversion F; subst.
  apply in_flat_map. exists l. split; [apply IH; auto; lia|]. apply in_map_iff. exists x. split; auto. apply zs_in; auto.
Qed.
Definition U (depth : nat) : list position := flat_map (fun i => map (fun l => (i, l)) (lists depth)) zs.
Lemma U_in : forall d i l, in_states i -> (length l <= d)%nat -> Forall in_states l -> In (i, l) (U d).
Proof.
  intros d i l H1 H2 H3. apply in_flat_map. exists i. split; [apply zs_in; auto|]. apply in_map_iff. exists l. split; auto. apply lists_in; auto.
Qed.
Lemma nodup_bound : forall (ks us : list position), NoDup ks -> incl ks us -> (length ks <= length us)%nat.
Proof. intros. apply NoDup_incl_length; auto. Qed.

Lemma active_rules : forall p i, in_states i -> Forall in_states p -> incl (active i p) (map st_rule (states a)).
Proof.
  induction p as [|f p IH]; intros i H F x Hx; cbn in Hx; [destruct Hx|]. inversion F; subst. destruct Hx as [<-|Hx].
  - unfold rule_of. unfold in_states, exists_state in H. destruct (state_at a i) as [s|] eqn:E; [|congruence].
    unfold state_at in E. destruct (i <? 0); [discriminate|]. apply in_map. eapply nth_error_In; eauto.
  - apply (IH f); auto.
Qed.
Lemma active_length : forall p i, length (active i p) = length p.
Proof. induction p; intros; cbn; auto. Qed.
Lemma depth_bound : forall p i, in_states i -> Forall in_states p -> NoDup (active i p) -> (length p <= length (states a))%nat.
Proof.
  intros p i H F N. rewrite <- (active_length p i), <- (map_length st_rule (states a)). apply NoDup_incl_length; auto. apply active_rules; auto.
Qed.

(** *** frames: every pushed frame was pushed by a call of its active rule *)
Definition frames (i : Z) (pushed : list Z) : Prop :=
  forall l1 f l2, pushed = l1 ++ f :: l2 ->
    exists g, is_rule_start a g /\ rule_of a g = rule_of a (last l1 i) /\ reaches a (g, []) (i, l1).
Lemma last_cons : forall (l : list Z) f d, last (f :: l) d = last l f.
Proof.
  induction l as [|y l IH]; intros f d; auto. change (last (f :: y :: l) d) with (last (y :: l) d).
  rewrite (IH y d), (IH y f). reflexivity.
Qed.
Lemma last_rule : forall (l : list Z) i j, rule_of a i = rule_of a j -> rule_of a (last l i) = rule_of a (last l j).
Proof. intros [|y l] i j H; auto. rewrite !last_cons. reflexivity. Qed.
Lemma active_in : forall p i r, In r (active i p) -> exists l1 f l2, p = l1 ++ f :: l2 /\ r = rule_of a (last l1 i).
Proof.
  induction p as [|f p IH]; intros i r H; cbn in H; [destruct H|]. destruct H as [<-|H].
  - exists [], f, p. auto.
  - destruct (IH f r H) as (l1 & f' & l2 & -> & ->). exists (f :: l1), f', l2. split; auto. rewrite last_cons. reflexivity.
Qed.

Definition emits (k : position) (x : Z) : Prop :=
  exists s, state_at a (fst k) = Some s /\
    ((is_stop s /\ snd k = [] /\ x = (if b then TOKEN_EOF else TOKEN_EPSILON)) \/
     (~ is_stop s /\ exists t, In t (st_trans s) /\ symbols t 1 (max_token_type a) x)).
Definition NLR : Prop := forall r, ~ left_recursive a r.
Record Inv (i : Z) (pushed base : list Z) : Prop := {
  inv_i : in_states i;
  inv_p : Forall in_states pushed;
  inv_b : Forall in_states base;
  inv_n : NoDup (active i pushed);
  inv_f : frames i pushed
}.
Definition same (l l' : list Z) : Prop := forall r, bit_contains l r = bit_contains l' r.
Lemma bit_contains_in : forall l r, bit_contains l r = true <-> In r l.
Proof.
  intros l r. unfold bit_contains. rewrite existsb_exists. split; [intros (x & H & E); apply Z.eqb_eq in E; subst; auto|].
  intros H. exists r. split; auto. apply Z.eqb_refl.
Qed.
Lemma bit_contains_false : forall l r, bit_contains l r = false <-> ~ In r l.
Proof. intros l r. rewrite <- bit_contains_in. destruct (bit_contains l r); split; congruence. Qed.
Lemma same_iff : forall l l', same l l' <-> forall r, In r l <-> In r l'.
Proof.
  intros l l'. unfold same. split; intros H r; specialize (H r).
  - rewrite <- !bit_contains_in, H. tauto.
  - rewrite <- !bit_contains_in in H. destruct (bit_contains l r), (bit_contains l' r); tauto || (symmetry; tauto) || intuition congruence.
Qed.
Lemma insert_in : forall l r x, In x (bit_insert l r) <-> x = r \/ In x l.
Proof.
  intros l r x. unfold bit_insert. destruct (bit_contains l r) eqn:E; cbn; [|intuition].
  apply bit_contains_in in E. split; auto. intros [->|]; auto.
Qed.
Lemma remove_in : forall l r x, In x (bit_remove l r) <-> x <> r /\ In x l.
Proof. intros l r x. unfold bit_remove. rewrite filter_In. split; intros [H1 H2]; split; auto; lia. Qed.

Variable B : nat.
Definition D := (length (states a) + B)%nat.

Record post (start : position) (ks ks' : list position) : Prop := {
  post_nodup : NoDup (ks' ++ ks);
  post_incl : incl (ks' ++ ks) (U D);
  post_reach : forall k, In k ks' -> reaches a start k;
  post_closed : NLR -> forall k k', In k ks' -> move a k k' -> In k' (ks' ++ ks)
}.
Lemma post_nil : forall start ks, NoDup ks -> incl ks (U D) -> post start ks [].
Proof. intros. constructor; auto; cbn; tauto. Qed.
Lemma post_seq : forall start start1 start2 ks ks1 ks2,
  reaches a start start1 -> reaches a start start2 ->
  post start1 ks ks1 -> post start2 (ks1 ++ ks) ks2 -> post start ks (ks2 ++ ks1).
Proof.
  intros start start1 start2 ks ks1 ks2 R1 R2 [] []. rewrite app_assoc in post_nodup1, post_incl1.
  constructor; auto.
  - intros k H. apply in_app_iff in H. destruct H as [H|H]; [apply (reaches_trans _ _ start2)|apply (reaches_trans _ _ start1)]; auto.
  - intros HN k k' H M. rewrite <- app_assoc. apply in_app_iff in H. destruct H as [H|H].
    + eapply post_closed1; eauto.
    + apply in_app_iff. right. eapply post_closed0; eauto.
Qed.

(** where the inserted ranges come from *)
Definition label_ranges (t : transition) : list interval :=
  match t with
  | Atom _ l => [Iv l l]
  | Range _ x y => if x <=? y then [Iv x y] else []
  | SetTr _ ss => intervals ss
  | NotSet _ ss => intervals (complement ss 1 (max_token_type a))
  | Wildcard _ => [Iv 1 (max_token_type a)]
  | _ => []
  end.
Definition src (r : interval) : Prop :=
  (exists i s t, state_at a i = Some s /\ In t (st_trans s) /\ In r (label_ranges t)) \/
  (exists e, r = Iv e e).
Definition emitted (ks' : list position) (rs' : list interval) : Prop :=
  Forall src rs' /\ forall x, member x rs' <-> exists k, In k ks' /\ emits k x.

Definition rec_ok (fuel : nat) : Prop := forall i s pushed base ks rs called,
  state_at a i = Some s -> Inv i pushed base -> same called (active i pushed) -> (length base <= B)%nat ->
  NoDup ks -> incl ks (U D) -> (length (U D) - length ks < fuel)%nat ->
  exists ks' rs' called',
    look_work fuel a None s (to_ctx (pushed ++ base)) true true (Work (hist rs) (map kcfg ks) called) =
      Val (Work (hist (rs ++ rs')) (map kcfg (ks' ++ ks)) called') /\
    same called' called /\ post (i, pushed ++ base) ks ks' /\ emitted ks' rs' /\ In (i, pushed ++ base) (ks' ++ ks).

Lemma inv_eps : forall i s pushed base t, state_at a i = Some s -> ~ is_stop s -> In t (st_trans s) ->
  ~ consuming t -> is_call t = false -> Inv i pushed base ->
  Inv (get_target t) pushed base /\ active (get_target t) pushed = active i pushed.
Proof.
  intros i s pushed base t E NS Ht NC IC [].
  destruct wf as [_ W]. destruct (W i s E) as [_ W']. destruct (W' NS t Ht) as (W1 & _ & W2).
  assert (R : rule_of a (get_target t) = rule_of a i).
  { unfold rule_of at 2. rewrite E. destruct t; cbn in *; try discriminate; try tauto. }
  pose proof (active_app _ pushed _ R) as A. split; auto.
  constructor; auto; [rewrite A; auto|].
  intros l1 f l2 Ep. destruct (inv_f0 l1 f l2 Ep) as (g & G1 & G2 & G3). exists g. split; auto. split.
  - rewrite G2. apply last_rule; auto.
  - eapply reaches_move; eauto. econstructor; eauto.
Qed.
Lemma inv_call : forall i s pushed base g f r p, state_at a i = Some s -> ~ is_stop s -> In (RuleTr g f r p) (st_trans s) ->
  Inv i pushed base -> ~ In (rule_of a g) (active i pushed) ->
  Inv g (f :: pushed) base /\ active g (f :: pushed) = rule_of a g :: active i pushed.
Proof.
  intros i s pushed base g f r p E NS Ht [] NI.
  destruct wf as [_ W]. destruct (W i s E) as [_ W']. destruct (W' NS _ Ht) as (W1 & _ & W2 & W3). cbn in W1.
  assert (R : rule_of a f = rule_of a i) by (unfold rule_of at 2; rewrite E; auto).
  assert (A : active g (f :: pushed) = rule_of a g :: active i pushed) by (cbn; f_equal; apply active_app; auto).
  split; auto. constructor; auto; [rewrite A; constructor; auto|].
  intros [|f0 l1] f' l2 Ep; injection Ep as <- Ep.
  - exists g. split; [exists i, s, f, r, p; auto|]. split; auto. constructor.
  - destruct (inv_f0 l1 f' l2 Ep) as (g' & G1 & G2 & G3). exists g'. split; auto. split.
    + rewrite G2, last_cons. apply last_rule; auto.
    + eapply reaches_move; eauto. econstructor; eauto.
Qed.
Lemma inv_return : forall i s pushed base f, state_at a i = Some s -> is_stop s -> Inv i (f :: pushed) base -> Inv f pushed base.
Proof.
  intros i s pushed base f E ST []. inversion inv_p0; inversion inv_n0; subst. constructor; auto.
  intros l1 f' l2 Ep. destruct (inv_f0 (f :: l1) f' l2) as (g & G1 & G2 & G3); [cbn; congruence|].
  exists g. split; auto. split; [rewrite G2, last_cons; auto|]. eapply reaches_move; eauto. econstructor; eauto.
Qed.
Lemma inv_return_base : forall i base f, Inv i [] (f :: base) -> Inv f [] base.
Proof.
  intros i base f []. inversion inv_b0; subst. constructor; auto. intros l1 f' l2 Ep. destruct l1; discriminate.
Qed.
Lemma nlr_call : forall i s pushed base g f r p, state_at a i = Some s -> ~ is_stop s -> In (RuleTr g f r p) (st_trans s) ->
  Inv i pushed base -> NLR -> ~ In (rule_of a g) (active i pushed).
Proof.
  intros i s pushed base g f r p E NS Ht [] HN HI. apply active_in in HI. destruct HI as (l1 & f' & l2 & Ep & Er).
  destruct (inv_f0 _ _ _ Ep) as (g' & G1 & G2 & G3). apply (HN (rule_of a g)).
  exists g', i, l1, s, g, f, r, p. repeat split; auto. congruence.
Qed.

Definition successor_in (t : transition) (st : list Z) (ks : list position) : Prop :=
  (~ consuming t -> is_call t = false -> In (get_target t, st) ks) /\
  (forall g f r p, t = RuleTr g f r p -> In (g, f :: st) ks).

Lemma member_app : forall x l l', member x (l ++ l') <-> member x l \/ member x l'.
Proof.
  intros x l l'. unfold member. split.
  - intros (r & H & R). apply in_app_iff in H. destruct H; [left|right]; exists r; auto.
  - intros [(r & H & R)|(r & H & R)]; exists r; split; auto; apply in_app_iff; auto.
Qed.
Lemma member_single : forall x lo hi, member x [Iv lo hi] <-> lo <= x <= hi.
Proof. intros x lo hi. unfold member, in_range. split; [intros (r & [<-|[]] & H); auto|]. intros H. exists (Iv lo hi). split; auto. left; auto. Qed.
Lemma no_emits : forall x, (exists k, In k (@nil position) /\ emits k x) <-> False.
Proof. intros x. split; [intros (k & [] & _)|intros []]. Qed.

Lemma label_range : forall x y, add_range is_new x y = IS (if x <=? y then [Iv x y] else []) false.
Proof.
  intros x y. unfold add_range, add_interval, is_new, add_interval_l, iv_length. cbn [intervals iv_a iv_b].
  destruct (Z.leb_spec x y); [replace (y - x <? 0) with false by lia|replace (y - x <? 0) with true by lia]; reflexivity.
Qed.

Lemma trans_one : forall fuel, rec_ok fuel -> forall i s pushed base t ks rs called,
  state_at a i = Some s -> ~ is_stop s -> In t (st_trans s) -> Inv i pushed base -> (length base <= B)%nat ->
  same called (active i pushed) -> NoDup ks -> incl ks (U D) -> (length (U D) - length ks < fuel)%nat ->
  exists ks' rs' called',
    look_trans (look_work fuel a None) a (to_ctx (pushed ++ base)) true true t (Work (hist rs) (map kcfg ks) called) =
      Val (Work (hist (rs ++ rs')) (map kcfg (ks' ++ ks)) called') /\
    same called' called /\ post (i, pushed ++ base) ks ks' /\
    (Forall src rs' /\ forall x, member x rs' <-> symbols t 1 (max_token_type a) x \/ exists k, In k ks' /\ emits k x) /\
    (NLR -> successor_in t (pushed ++ base) (ks' ++ ks)).
Proof.
  intros fuel IH i s pushed base t ks rs called E NS Ht HI HB HS ND IN FU.
  destruct (proj2 wf i s E) as [_ W]. destruct (W NS t Ht) as (W1 & W2 & W3).
  destruct (state_at a (get_target t)) as [s'|] eqn:E'; [|unfold exists_state in W1; congruence].
  assert (LAB : forall l rs', get_label t = Some l -> consuming t -> rs' = label_ranges t ->
     (forall x, member x rs' <-> symbols t 1 (max_token_type a) x) ->
     (is_epsilon t = false -> (match get_label t with
           | None => Val (Work (hist rs) (map kcfg ks) called)
           | Some set =>
               let set := match t with
                          | NotSet _ _ => complement set TOKEN_MIN_USER_TOKEN_TYPE (max_token_type a)
                          | _ => set
                          end in
               Val (with_look (Work (hist rs) (map kcfg ks) called) (add_set (hist rs) set))
           end) = Val (Work (hist (rs ++ rs')) (map kcfg ks) called)) ->
     exists ks' rs' called',
    (match get_label t with
           | None => Val (Work (hist rs) (map kcfg ks) called)
           | Some set =>
               let set := match t with
                          | NotSet _ _ => complement set TOKEN_MIN_USER_TOKEN_TYPE (max_token_type a)
                          | _ => set
                          end in
               Val (with_look (Work (hist rs) (map kcfg ks) called) (add_set (hist rs) set))
           end) = 
      Val (Work (hist (rs ++ rs')) (map kcfg (ks' ++ ks)) called') /\
    same called' called /\ post (i, pushed ++ base) ks ks' /\
    (Forall src rs' /\ forall x, member x rs' <-> symbols t 1 (max_token_type a) x \/ exists k, In k ks' /\ emits k x) /\
    (NLR -> successor_in t (pushed ++ base) (ks' ++ ks))).
  { intros l rs' El C LR M X. exists [], rs', called. split; [apply X; apply not_true_iff_false; rewrite eps_consuming; tauto|].
    split; [intros r; auto|]. split; [apply post_nil; auto|]. split.
    - split; [|intros x; rewrite no_emits, M; tauto].
      apply Forall_forall. intros q Hq. left. exists i, s, t. split; auto. split; auto. rewrite <- LR. auto.
    - intros _. split; [tauto|]. intros g f r p ->. destruct C. }
  assert (EPS : ~ consuming t -> is_call t = false -> exists ks' rs' called',
    look_work fuel a None s' (to_ctx (pushed ++ base)) true true (Work (hist rs) (map kcfg ks) called) =
      Val (Work (hist (rs ++ rs')) (map kcfg (ks' ++ ks)) called') /\
    same called' called /\ post (i, pushed ++ base) ks ks' /\
    (Forall src rs' /\ forall x, member x rs' <-> symbols t 1 (max_token_type a) x \/ exists k, In k ks' /\ emits k x) /\
    (NLR -> successor_in t (pushed ++ base) (ks' ++ ks))).
  { intros NC IC. destruct (inv_eps i s pushed base t E NS Ht NC IC HI) as [HI' HA].
    destruct (IH (get_target t) s' pushed base ks rs called) as (ks' & rs' & called' & R1 & R2 & R3 & R4 & R5); auto.
    { rewrite HA; auto. }
    exists ks', rs', called'. split; auto. split; auto.
    assert (M : move a (i, pushed ++ base) (get_target t, pushed ++ base)) by (econstructor; eauto).
    split; [destruct R3; constructor; auto; intros; eapply reaches_trans; eauto using reaches_one|]. split.
    - destruct R4 as [R4a R4]. split; auto. intros x. rewrite (R4 x). split; auto. intros [H|H]; auto. destruct t; cbn in *; try tauto; exfalso; auto.
    - intros _. split; auto. intros g f r p ->. discriminate. }
  unfold look_trans. rewrite (get_state_at _ _ E'). cbn [obindo].
  destruct t as [g l|g f r p|g o|g x y|g c r x y|g ss|g ss|g|g c r p|g p]; cbn [get_target] in *;
    cbn [is_epsilon]; try (apply EPS; [tauto|reflexivity]).
  - apply (LAB (add_one is_new l) [Iv l l]); [reflexivity|exact Logic.I|reflexivity| |].
    + intros x. rewrite member_single. cbn. lia.
    + intros _. cbn [get_label]. unfold with_look. cbn [w_busy w_called].
      unfold add_one. rewrite label_range. rewrite Z.leb_refl, hist_add_ro. reflexivity.
  - unfold with_called. cbn [w_called w_look w_busy]. destruct (bit_contains called (st_rule s')) eqn:BC.
    + exists [], [], called. cbn [app]. rewrite app_nil_r. split; auto. split; [intros q; auto|]. split; [apply post_nil; auto|]. split.
      * split; [constructor|]. intros x. rewrite no_emits. cbn. unfold member. split; [intros (? & [] & _)|tauto].
      * intros HN. exfalso. apply (nlr_call i s pushed base g f r p E NS Ht HI HN). rewrite HS in BC. apply bit_contains_in in BC. unfold rule_of. rewrite E'. exact BC.
    + assert (NI : ~ In (rule_of a g) (active i pushed)) by (unfold rule_of; rewrite E', <- bit_contains_in, <- HS, BC; discriminate).
      destruct (inv_call i s pushed base g f r p E NS Ht HI NI) as [HI' HA].
      assert (Rg : rule_of a g = st_rule s') by (unfold rule_of; rewrite E'; auto).
      destruct (IH g s' (f :: pushed) base ks rs (bit_insert called (st_rule s'))) as (ks' & rs' & called' & R1 & R2 & R3 & R4 & R5); auto.
      { rewrite HA, Rg. apply same_iff. intros q. rewrite insert_in. cbn. apply same_iff with (r := q) in HS. rewrite HS. intuition. }
      cbn [app to_ctx] in R1. rewrite R1. cbn [obindo w_called w_look w_busy].
      exists ks', rs', (bit_remove called' (st_rule s')). split; auto. split.
      { apply same_iff. intros q. rewrite remove_in. pose proof (proj1 (same_iff _ _) R2 q) as Q. rewrite Q, insert_in.
        apply bit_contains_false in BC. split; [tauto|]. intros Hq. split; auto. intros ->. auto. }
      assert (M : move a (i, pushed ++ base) (g, f :: pushed ++ base)) by (econstructor; eauto).
      split; [destruct R3; constructor; auto; intros; eapply reaches_trans; eauto using reaches_one|]. split.
      * destruct R4 as [R4a R4]. split; auto. intros x. rewrite (R4 x). cbn. tauto.
      * intros _. split; [discriminate|]. intros g0 f0 r0 p0 [= <- <- <- <-]. auto.
  - apply (LAB (add_range is_new x y) (if x <=? y then [Iv x y] else [])); [reflexivity|exact Logic.I|reflexivity| |].
    + intros z. cbn. destruct (Z.leb_spec x y); [rewrite member_single; lia|]. unfold member. split; [intros (? & [] & _)|lia].
    + intros _. cbn [get_label]. unfold with_look. cbn [w_busy w_called].
      rewrite label_range, hist_add_ro. reflexivity.
  - apply (LAB ss (intervals ss)); [reflexivity|exact Logic.I|reflexivity|reflexivity|].
    intros _. cbn [get_label]. unfold with_look. cbn [w_busy w_called]. destruct ss. rewrite hist_add_ro. reflexivity.
  - destruct (complement_spec ss 1 (max_token_type a)) as [_ CS]; [exact W2|].
    apply (LAB ss (intervals (complement ss 1 (max_token_type a)))); [reflexivity|exact Logic.I|reflexivity|exact CS|].
    intros _. cbn [get_label]. unfold with_look. cbn [w_busy w_called].
    change TOKEN_MIN_USER_TOKEN_TYPE with 1. destruct (complement ss 1 (max_token_type a)). rewrite hist_add_ro. reflexivity.
  - exists [], [Iv 1 (max_token_type a)], called. unfold with_look. cbn [w_busy w_called w_look app]. rewrite hist_range. split; auto.
    split; [intros q; auto|]. split; [apply post_nil; auto|]. split.
    + split; [apply Forall_cons; [left; exists i, s, (Wildcard g); cbn; auto|constructor]|].
      intros x. rewrite no_emits, member_single. cbn. tauto.
    + intros _. split; [cbn; tauto|]. intros; discriminate.
Qed.

Lemma trans_loop : forall fuel, rec_ok fuel -> forall i s pushed base,
  state_at a i = Some s -> ~ is_stop s -> Inv i pushed base -> (length base <= B)%nat -> forall ts ks rs called,
  incl ts (st_trans s) ->
  same called (active i pushed) -> NoDup ks -> incl ks (U D) -> (length (U D) - length ks < fuel)%nat ->
  exists ks' rs' called',
    each (look_trans (look_work fuel a None) a (to_ctx (pushed ++ base)) true true) ts (Work (hist rs) (map kcfg ks) called) =
      Val (Work (hist (rs ++ rs')) (map kcfg (ks' ++ ks)) called') /\
    same called' called /\ post (i, pushed ++ base) ks ks' /\
    (Forall src rs' /\ forall x, member x rs' <-> (exists t, In t ts /\ symbols t 1 (max_token_type a) x) \/ exists k, In k ks' /\ emits k x) /\
    (NLR -> forall t, In t ts -> successor_in t (pushed ++ base) (ks' ++ ks)).
Proof.
  intros fuel IH i s pushed base E NS HI HB ts. induction ts as [|t ts IHt]; intros ks rs called IT HS ND IN FU; cbn [each].
  - exists [], [], called. rewrite app_nil_r. split; auto. split; [intros q; auto|]. split; [apply post_nil; auto|]. split.
    + split; [constructor|]. intros x. rewrite no_emits. unfold member. split; [intros (? & [] & _)|intros [(? & [] & _)|[]]].
    + intros _ t [].
  - destruct (trans_one fuel IH i s pushed base t ks rs called) as (ks1 & rs1 & c1 & R1 & R2 & R3 & R4 & R5); auto.
    { apply IT. left; auto. }
    rewrite R1. cbn [obindo].
    destruct (IHt (ks1 ++ ks) (rs ++ rs1) c1) as (ks2 & rs2 & c2 & Q1 & Q2 & Q3 & Q4 & Q5).
    { intros x Hx. apply IT. right; auto. }
    { intros q. rewrite R2. apply HS. }
    { apply R3. } { apply R3. } { rewrite app_length. lia. }
    rewrite Q1. exists (ks2 ++ ks1), (rs1 ++ rs2), c2. rewrite <- !app_assoc. split; auto.
    split; [intros q; rewrite Q2; apply R2|].
    split; [apply (post_seq _ (i, pushed ++ base) (i, pushed ++ base)); auto; constructor|]. split.
    + destruct R4 as [R4a R4], Q4 as [Q4a Q4]. split; [apply Forall_app; auto|]. intros x. rewrite member_app, R4, Q4. split.
      * intros [[H|(k & Hk & H)]|[(t' & Ht' & H)|(k & Hk & H)]].
        -- left. exists t. split; auto. left; auto.
        -- right. exists k. split; auto. apply in_app_iff; auto.
        -- left. exists t'. split; auto. right; auto.
        -- right. exists k. split; auto. apply in_app_iff; auto.
      * intros [(t' & [<-|Ht'] & H)|(k & Hk & H)]; auto.
        -- right. left. eauto.
        -- apply in_app_iff in Hk. destruct Hk; [right; right|left; right]; eauto.
    + intros HN t' [<-|Ht']; [|apply Q5; auto].
      destruct (R5 HN) as [S1 S2]. split; intros.
      * apply in_app_iff. right. apply S1; auto.
      * apply in_app_iff. right. eapply S2; eauto.
Qed.

Lemma look_ok : forall fuel, rec_ok fuel.
Proof.
  induction fuel as [|fuel IH]; intros i s pushed base ks rs called E HI HS HB ND IN FU; [lia|].
  cbn [look_work]. destruct (proj2 wf i s E) as [Wn W]. rewrite Wn. cbn [w_busy].
  change (busy_config i (to_ctx (pushed ++ base))) with (kcfg (i, pushed ++ base)).
  destruct (existsb (busy_eqb (kcfg (i, pushed ++ base))) (map kcfg ks)) eqn:EB.
  { apply busy_in in EB. exists [], [], called. rewrite app_nil_r. split; auto. split; [intros q; auto|]. split; [apply post_nil; auto|]. split; auto.
    split; [constructor|]. intros x. rewrite no_emits. unfold member. split; [intros (? & [] & _)|intros []]. }
  assert (NK : ~ In (i, pushed ++ base) ks) by (rewrite <- busy_in, EB; discriminate).
  set (k := (i, pushed ++ base)) in *. unfold with_busy. cbn [w_look w_called w_busy].
  change (kcfg k :: map kcfg ks) with (map kcfg (k :: ks)).
  assert (KU : In k (U D)).
  { destruct HI. apply U_in; auto.
    - rewrite app_length. pose proof (depth_bound pushed i inv_i0 inv_p0 inv_n0). unfold D. lia.
    - apply Forall_app; auto. }
  assert (ND' : NoDup (k :: ks)) by (constructor; auto).
  assert (IN' : incl (k :: ks) (U D)) by (intros x [<-|Hx]; auto).
  assert (FU' : (length (U D) - length (k :: ks) < fuel)%nat).
  { pose proof (nodup_bound _ _ ND' IN') as NB. clear - NB FU. cbn [length] in *. unfold position in *. lia. }
  unfold at_stop_state. cbn [obindo]. unfold at_rule_stop.
  assert (DEC : {is_stop s} + {~ is_stop s}) by (unfold is_stop; destruct (st_type s); (left; reflexivity) || (right; discriminate)).
  destruct DEC as [ST|NS].
  - unfold is_stop in ST. rewrite ST.
    destruct (pushed ++ base) as [|f st] eqn:EP.
    + (* nothing left on the stack *)
      apply app_eq_nil in EP. destruct EP as [-> ->].
      exists [k], [Iv (if b then TOKEN_EOF else TOKEN_EPSILON) (if b then TOKEN_EOF else TOKEN_EPSILON)], called.
      split.
      { cbn [to_ctx]. destruct b; cbn [obindo pc_is_empty singleton_is_empty EMPTY]; cbn; unfold with_look; cbn [w_busy w_called w_look];
          unfold add_one; rewrite hist_range; reflexivity. }
      split; [intros q; auto|]. split.
      { constructor; auto.
        - intros k' [<-|[]]. constructor.
        - intros _ k1 k2 [<-|[]] M. unfold k in M. apply move_inv with (s := s) in M; auto.
          destruct M as [(NS & _)|[(NS & _)|(_ & f & st & EP & _)]]; [contradiction|contradiction|discriminate]. }
      split; [|left; auto].
      split; [apply Forall_cons; [right; eauto|constructor]|]. intros x. rewrite member_single. split.
      * intros H. exists k. split; [left; auto|]. exists s. split; auto. left. split; auto. split; auto. destruct H. apply Z.le_antisymm; auto.
      * intros (k' & [<-|[]] & s0 & Es & [(_ & _ & ->)|(NS & _)]); [split; apply Z.le_refl|]. cbn in Es. rewrite E in Es. injection Es as <-. contradiction.
    + (* return *)
      assert (Hf : in_states f).
      { destruct HI. assert (F : Forall in_states (f :: st)) by (rewrite <- EP; apply Forall_app; auto). inversion F; auto. }
      destruct (proj1 (in_states_range _) Hf) as [F1 F2]. destruct wf as [WL _].
      cbn [to_ctx]. unfold pc_is_empty, singleton_is_empty. cbn [obindo].
      replace (f =? EMPTY_RETURN_STATE) with false by (unfold EMPTY_RETURN_STATE; lia). cbn [andb obindo].
      assert (pctx_eqb (Singleton f (to_ctx st)) EMPTY = false) as ->.
      { cbn. replace (f =? EMPTY_RETURN_STATE) with false by (unfold EMPTY_RETURN_STATE; lia). reflexivity. }
      cbn [negb]. unfold look_unwind. cbn [pc_length seq each get_return_state get_parent obindo w_called with_called w_look w_busy].
      destruct (state_at a f) as [sf|] eqn:Ef; [|unfold in_states, exists_state in Hf; congruence].
      rewrite (get_state_at _ _ Ef). cbn [obindo].
      assert (Ri : rule_of a i = st_rule s) by (unfold rule_of; rewrite E; auto).
      assert (EX : exists pushed' base', st = pushed' ++ base' /\ Inv f pushed' base' /\ (length base' <= B)%nat /\
                same (bit_remove called (st_rule s)) (active f pushed') /\
                (forall c', same c' (bit_remove called (st_rule s)) ->
                  same (if bit_contains called (st_rule s) then bit_insert c' (st_rule s) else c') called)).
      { destruct pushed as [|f0 pushed].
        - cbn in EP. subst base. exists [], st. split; auto. split; [eapply inv_return_base; eauto|]. split; [cbn in HB; lia|]. cbn [active] in *.
          assert (X : same (bit_remove called (st_rule s)) []).
          { apply same_iff. intros q. rewrite remove_in. apply same_iff with (r := q) in HS. rewrite HS. cbn. tauto. }
          split; auto. intros c' Hc. rewrite (HS (st_rule s)). cbn. intros q. rewrite Hc, X, HS. reflexivity.
        - cbn in EP. injection EP as -> <-. exists pushed, base. split; auto. split; [apply (inv_return i s _ _ _ E ST HI)|]. split; auto.
          destruct HI. cbn [active] in *. inversion inv_n0; subst. rewrite Ri in *.
          split.
          + apply same_iff. intros q. rewrite remove_in. apply same_iff with (r := q) in HS. rewrite HS. cbn. split.
            * intros [Q1 [Q2|Q2]]; congruence || auto.
            * intros Q. split; auto. intros ->. contradiction.
          + intros c' Hc. rewrite (HS (st_rule s)). unfold bit_contains at 1. cbn [existsb]. rewrite Z.eqb_refl. cbn [orb].
            apply same_iff. intros q. rewrite insert_in. apply same_iff with (r := q) in Hc. rewrite Hc, remove_in.
            apply same_iff with (r := q) in HS. rewrite HS. cbn. destruct (Z.eq_dec q (st_rule s)); intuition congruence. }
      destruct EX as (pushed' & base' & -> & HI' & HB' & HS' & RES).
      destruct (IH f sf pushed' base' (k :: ks) rs (bit_remove called (st_rule s))) as (ks' & rs' & c' & R1 & R2 & R3 & R4 & R5); auto.
      unfold with_called. cbn [w_look w_busy]. rewrite R1. cbn [obindo w_called w_look w_busy].
      exists (ks' ++ [k]), rs', (if bit_contains called (st_rule s) then bit_insert c' (st_rule s) else c').
      rewrite <- app_assoc. cbn [app]. split; [destruct (bit_contains called (st_rule s)); reflexivity|]. split; auto.
      assert (M : move a k (f, pushed' ++ base')) by (econstructor; eauto). split; [|split].
      * destruct R3. constructor; try rewrite <- app_assoc; auto.
        -- intros k' H. apply in_app_iff in H. destruct H as [H|[<-|[]]]; [|constructor]. eapply reaches_trans; [apply reaches_one; eauto|auto].
        -- intros HN k1 k2 H M'. apply in_app_iff in H. destruct H as [H|[<-|[]]]; [eapply post_closed0; eauto|].
           cbn [app]. unfold k in M'. apply move_inv with (s := s) in M'; auto.
           destruct M' as [(NS & _)|[(NS & _)|(_ & f1 & st1 & E1 & ->)]]; [contradiction|contradiction|]. injection E1 as <- <-. auto.
      * destruct R4 as [R4a R4]. split; auto. intros x. rewrite (R4 x). split; intros (k' & Hk & Hx); exists k'; split; auto.
        -- apply in_app_iff; auto.
        -- apply in_app_iff in Hk. destruct Hk as [Hk|[<-|[]]]; auto. exfalso. destruct Hx as (s0 & Es & [(_ & Hn & _)|(NS & _)]); [discriminate|].
           cbn in Es. rewrite E in Es. injection Es as <-. contradiction.
      * apply in_app_iff. right. left. auto.
  - destruct (trans_loop fuel IH i s pushed base E NS HI HB (st_trans s) (k :: ks) rs called) as (ks' & rs' & c' & R1 & R2 & R3 & R4 & R5); auto.
    { intros x; auto. }
    exists (ks' ++ [k]), rs', c'. rewrite <- app_assoc. cbn [app]. split.
    { unfold is_stop in NS. destruct (st_type s); try exact R1. congruence. }
    split; auto. fold k in R3, R5. split; [|split].
    + destruct R3. constructor; try rewrite <- app_assoc; auto.
      * intros k' H. apply in_app_iff in H. destruct H as [H|[<-|[]]]; [auto|constructor].
      * intros HN k1 k2 H M'. apply in_app_iff in H. destruct H as [H|[<-|[]]]; [eapply post_closed0; eauto|].
        cbn [app]. unfold k in M'. apply move_inv with (s := s) in M'; auto.
        destruct M' as [(_ & t & Ht & C1 & C2 & ->)|[(_ & g & f & r & p & Ht & ->)|(ST & _)]]; [| |contradiction].
        -- apply (R5 HN t); auto.
        -- destruct (R5 HN _ Ht) as [_ Q]. eapply Q; eauto.
    + destruct R4 as [R4a R4]. split; auto. intros x. rewrite (R4 x). split.
      * intros [(t & Ht & Hx)|(k' & Hk & Hx)].
        -- exists k. split; [apply in_app_iff; right; left; auto|]. exists s. split; auto. right. split; auto. eauto.
        -- exists k'. split; auto. apply in_app_iff; auto.
      * intros (k' & Hk & Hx). apply in_app_iff in Hk. destruct Hk as [Hk|[<-|[]]]; [right; eauto|].
        left. destruct Hx as (s0 & Es & [(ST & _ & _)|(_ & t & Ht & Hx)]); cbn in Es; rewrite E in Es; injection Es as <-; [contradiction|eauto].
    + apply in_app_iff. right. left. auto.
Qed.

(** ** More fuel does not change the result *)
Lemma each_mono : forall {A} (f g : A -> work -> outcome work) l w w',
  (forall x w w', In x l -> f x w = Val w' -> g x w = Val w') -> each f l w = Val w' -> each g l w = Val w'.
Proof.
  intros A f g l. induction l as [|x l IH]; intros w w' H E; cbn [each] in *; auto.
  destruct (f x w) as [w1| |] eqn:E1; try discriminate. rewrite (H x w w1); auto; [|left; auto]. cbn [obindo] in *.
  apply IH; auto. intros. apply H; auto. right; auto.
Qed.
Lemma look_mono : forall fuel stop s ctx see eof w w',
  look_work fuel a stop s ctx see eof w = Val w' -> look_work (S fuel) a stop s ctx see eof w = Val w'.
Proof.
  induction fuel as [|fuel IH]; intros stop s ctx see eof w w' H; [discriminate|].
  remember (S fuel) as f1 eqn:E1. rewrite E1 in H. cbn [look_work] in H |- *.
  destruct (existsb (busy_eqb (busy_config (st_number s) ctx)) (w_busy w)); auto.
  destruct (at_stop_state stop s ctx eof) as [c| |]; auto. cbn [obindo] in *.
  match type of H with obindo ?x _ = _ => destruct x as [c2| |]; try discriminate end. cbn [obindo] in *.
  destruct c2 as [tk|x|]; auto.
  - unfold look_unwind in *. match type of H with obindo ?x _ = _ => destruct x as [w1| |] eqn:Ex; try discriminate end.
    erewrite each_mono; [exact H| |exact Ex]. intros j w2 w3 Hj. cbn beta.
    destruct (get_return_state x j) as [r| |]; try discriminate. cbn [obindo]. destruct (get_state a r) as [s1| |]; try discriminate. cbn [obindo].
    destruct (get_parent x j) as [p| |]; try discriminate. cbn [obindo]. subst f1. apply IH.
  - eapply each_mono; [|exact H]. intros t w2 w3 Ht. unfold look_trans.
    destruct (get_state a (get_target t)) as [s1| |]; try discriminate. cbn [obindo]. subst f1.
    destruct t; cbn [is_epsilon]; try apply IH; try tauto; try (destruct see; [apply IH|tauto]).
    destruct (bit_contains (w_called w2) (st_rule s1)); [tauto|].
    match goal with |- obindo ?x _ = _ -> _ => destruct x as [w4| |] eqn:E4; try discriminate end.
    apply IH in E4. rewrite E4. tauto.
Qed.
Lemma look_mono_le : forall n fuel stop s ctx see eof w w', (n <= fuel)%nat ->
  look_work n a stop s ctx see eof w = Val w' -> look_work fuel a stop s ctx see eof w = Val w'.
Proof. intros n fuel stop s ctx see eof w w' L H. induction L; auto. apply look_mono; auto. Qed.
End Bottom.

(** ** What the analyzer returns *)
Definition end_token (b : bool) : Z := if b then TOKEN_EOF else TOKEN_EPSILON.

Lemma reach_closed : forall a (p : position) (ks : list position), In p ks ->
  (forall k k', In k ks -> move a k k' -> In k' ks) -> forall q, reaches a p q -> In q ks.
Proof. intros a p ks H C q R. induction R; eauto. Qed.

Lemma look_exact : forall b a i s base, well_formed a -> state_at a i = Some s -> Forall (exists_state a) base ->
  exists n rs, (forall fuel, (n <= fuel)%nat -> look fuel a s None (to_ctx b base) = Val (hist rs)) /\
    Forall (src a) rs /\
    (forall x, member x rs -> can_start_with a (i, base) x \/ (x = end_token b /\ can_finish a (i, base))) /\
    (NLR a -> forall x, can_start_with a (i, base) x \/ (x = end_token b /\ can_finish a (i, base)) -> member x rs).
Proof.
  intros b a i s base wf E FB. set (B := length base).
  assert (HI : Inv a i [] base).
  { constructor; auto.
    - unfold in_states, exists_state. congruence.
    - constructor.
    - intros l1 f l2 Ep. destruct l1; discriminate. }
  destruct (look_ok b a wf B (S (length (U a (D a B)))) i s [] base [] [] [] E HI) as (ks' & rs & c' & R1 & R2 & R3 & [R4a R4] & R5).
  { intros q. reflexivity. } { auto. } { constructor. } { intros q []. } { cbn [length]. lia. }
  exists (S (length (U a (D a B)))), rs. rewrite app_nil_r in *. cbn [app map] in R1. split; [|split; [|split]]; auto.
  - intros fuel L. unfold look. change is_new with (hist []). rewrite (look_mono_le a _ _ _ _ _ _ _ _ _ L R1). reflexivity.
  - intros x M. apply R4 in M. destruct M as ([j st] & Hk & s' & Es & [(ST & Est & Ex)|(NS & t & Ht & Hx)]); cbn [fst snd] in *.
    + right. split; auto. subst st. exists j, s'. split; auto. apply (post_reach _ _ _ _ _ R3 _ Hk).
    + left. exists j, st, s', t. split; auto. apply (post_reach _ _ _ _ _ R3 _ Hk).
  - intros HN x H. apply R4.
    assert (CL : forall q, reaches a (i, base) q -> In q ks').
    { apply reach_closed; auto. intros k k' Hk M. pose proof (post_closed _ _ _ _ _ R3 HN k k' Hk M) as X. rewrite app_nil_r in X. auto. }
    destruct H as [(j & st & s' & t & R & Es & NS & Ht & Hx)|(-> & j & s' & R & Es & ST)].
    + exists (j, st). split; auto. exists s'. split; auto. right. eauto.
    + exists (j, []). split; auto. exists s'. split; auto.
Qed.

(** ** Paths through the invocation stack *)
Lemma start_split : forall a i f rest x, can_start_with a (i, f :: rest) x <->
  can_start_with a (i, []) x \/ (can_finish a (i, []) /\ can_start_with a (f, rest) x).
Proof.
  intros a i f rest x. split.
  - intros (j & st & s & t & R & Es & NS & Ht & Hx). change (f :: rest) with ([] ++ f :: rest) in R. apply reaches_split in R.
    destruct R as [(q & Eq & R)|(f' & base' & m & s' & Eb & R & Em & ST & R')].
    + left. exists j, q, s, t. auto.
    + injection Eb as <- <-. right. split; [exists m, s'; auto|]. exists j, st, s, t. auto.
  - intros [(j & st & s & t & R & H)|[(j & s & R & Es & ST) (j' & st & s' & t & R' & H)]].
    + exists j, (st ++ f :: rest), s, t. split; auto. apply (reaches_app a i [] j st (f :: rest)); auto.
    + exists j', st, s', t. split; auto. apply (reaches_app a i [] j [] (f :: rest)) in R. cbn in R.
      eapply reaches_trans; [|exact R']. eapply reaches_move; [exact R|]. econstructor; eauto.
Qed.
Lemma finish_split : forall a i f rest, can_finish a (i, f :: rest) <-> can_finish a (i, []) /\ can_finish a (f, rest).
Proof.
  intros a i f rest. split.
  - intros (j & s & R & Es & ST). change (f :: rest) with ([] ++ f :: rest) in R. apply reaches_split in R.
    destruct R as [(q & Eq & R)|(f' & base' & m & s' & Eb & R & Em & ST' & R')].
    + cbn in Eq. destruct q; discriminate.
    + injection Eb as <- <-. split; [exists m, s'; auto|exists j, s; auto].
  - intros [(j & s & R & Es & ST) (j' & s' & R' & H)]. exists j', s'. split; auto.
    apply (reaches_app a i [] j [] (f :: rest)) in R. cbn in R.
    eapply reaches_trans; [|exact R']. eapply reaches_move; [exact R|]. econstructor; eauto.
Qed.

(** ** Interval sets and spec-level lookahead *)
Definition lookahead_of (a : atn) (i : Z) (x : Z) : Prop :=
  can_start_with a (i, []) x \/ (x = TOKEN_EPSILON /\ can_finish a (i, [])).

Lemma hist_contains : forall rs x, contains (hist rs) x = true -> member x rs.
Proof.
  intros rs x H. apply contains_sound in H. unfold hist in H. cbn [intervals] in H.
  destruct (insertions_sound rs [] (Forall_nil _)) as [_ M]. apply M in H. destruct H as [H|H]; auto. destruct (member_nil _ H).
Qed.
Lemma hist_exact : forall rs, narrow_history [] rs -> canonical (intervals (hist rs)) /\ forall x, contains (hist rs) x = true <-> member x rs.
Proof.
  intros rs N. destruct (narrow_history_spec rs [] canonical_nil N) as [C M]. split; auto.
  intros x. rewrite contains_spec by auto. unfold hist. cbn [intervals]. rewrite M. pose proof (member_nil x). tauto.
Qed.
Lemma thin_src : forall a rs, thin_labels a -> Forall (src a) rs -> narrow_history [] rs.
Proof.
  intros a rs T F. apply thin_narrow; [apply canonical_nil|]. eapply Forall_impl; [|exact F]. intros r [(i & s & t & E & Ht & Hr)|(e & ->)]; cbn; [|lia].
  specialize (T i s t E Ht). destruct t; cbn in Hr; try tauto.
  - destruct Hr as [<-|[]]. cbn. lia.
  - destruct (start <=? stop); [|destruct Hr]. destruct Hr as [<-|[]]. cbn. lia.
  - rewrite Forall_forall in T. auto.
Qed.
Lemma contains_ro : forall s x ro, contains (IS (intervals s) ro) x = contains s x.
Proof. reflexivity. Qed.

Lemma next_tokens_hist : forall a i s, well_formed a -> state_at a i = Some s ->
  exists n rs, (forall fuel, (n <= fuel)%nat -> next_tokens fuel a s = Val (IS (intervals (hist rs)) true)) /\
    Forall (src a) rs /\
    (forall x, member x rs -> lookahead_of a i x) /\ (NLR a -> forall x, lookahead_of a i x -> member x rs).
Proof.
  intros a i s wf E. destruct (look_exact false a i s [] wf E (Forall_nil _)) as (n & rs & H1 & H2 & H3 & H4).
  exists n, rs. split; [|auto]. intros fuel L. unfold next_tokens, next_tokens_in_ctx.
  change (@None pctx) with (to_ctx false []). rewrite H1; auto.
Qed.

(** ** The loop over the stack *)
Definition rest_of (a : atn) (conts : list Z) (x : Z) : Prop :=
  match conts with
  | [] => x = TOKEN_EOF
  | f :: rest => can_start_with a (f, rest) x \/ (x = TOKEN_EOF /\ can_finish a (f, rest))
  end.
Lemma rest_cons : forall a f rest x,
  rest_of a (f :: rest) x <-> can_start_with a (f, []) x \/ (can_finish a (f, []) /\ rest_of a rest x).
Proof.
  intros a f [|g rest] x; cbn [rest_of]; [tauto|]. rewrite start_split, finish_split. tauto.
Qed.
Lemma no_eps : forall a p, token_labels a -> ~ can_start_with a p TOKEN_EPSILON.
Proof.
  intros a p T (i & st & s & t & _ & E & _ & Ht & Hx). specialize (T _ _ _ _ E Ht Hx). unfold TOKEN_EPSILON in T. lia.
Qed.
Lemma lookahead_low : forall a i x, token_labels a -> lookahead_of a i x -> TOKEN_EPSILON <= x.
Proof.
  intros a i x T [(j & st & s & t & _ & E & _ & Ht & Hx)|[-> _]]; [|unfold TOKEN_EPSILON; lia].
  specialize (T _ _ _ _ E Ht Hx). unfold TOKEN_EPSILON. lia.
Qed.
Lemma lookahead_eps : forall a i, token_labels a -> lookahead_of a i TOKEN_EPSILON -> can_finish a (i, []).
Proof. intros a i T [H|[_ H]]; auto. destruct (no_eps _ _ T H). Qed.
Lemma lookahead_start : forall a i x, lookahead_of a i x -> x <> TOKEN_EPSILON -> can_start_with a (i, []) x.
Proof. intros a i x [H|[H _]] N; auto. contradiction. Qed.

Lemma add_set_fold : forall s o, add_set s o = IS (fold_left (fun l r => add_interval_l r l) (intervals o) (intervals s)) (read_only s).
Proof.
  intros [l ro] [m ro']. unfold add_set. cbn [intervals read_only]. revert l. induction m as [|r m IH]; intros l; cbn [fold_left]; auto.
  unfold add_interval at 2. cbn [intervals read_only]. apply IH.
Qed.

Record sound_set (P : Z -> Prop) (s : interval_set) : Prop := {
  ss_ro : read_only s = false;
  ss_valid : all_valid (intervals s);
  ss_low : Forall (fun r => TOKEN_EPSILON <= iv_a r) (intervals s);
  ss_mem : forall x, member x (intervals s) -> x <> TOKEN_EPSILON -> P x
}.
Lemma valid_low : forall l, all_valid l -> (forall x, member x l -> TOKEN_EPSILON <= x) -> Forall (fun r => TOKEN_EPSILON <= iv_a r) l.
Proof.
  intros l V M. apply Forall_forall. intros r Hr. apply M. exists r. split; auto. unfold all_valid in V. rewrite Forall_forall in V.
  specialize (V r Hr). unfold in_range. lia.
Qed.
Lemma merge_sound : forall (P Q : Z -> Prop) s o, sound_set P s -> all_valid (intervals o) ->
  Forall (fun r => TOKEN_EPSILON <= iv_a r) (intervals o) -> (forall x, member x (intervals o) -> x <> TOKEN_EPSILON -> Q x) ->
  exists s', remove_one (add_set s o) TOKEN_EPSILON = Some s' /\ sound_set (fun x => P x \/ Q x) s'.
Proof.
  intros P Q s o [R V L M] Vo Lo Mo. rewrite add_set_fold, R.
  destruct (insertions_sound (intervals o) (intervals s) V) as [V' M'].
  set (l := fold_left (fun l r => add_interval_l r l) (intervals o) (intervals s)) in *.
  assert (L' : Forall (fun r => TOKEN_EPSILON <= iv_a r) l).
  { apply valid_low; auto. intros x Hx. apply M' in Hx. rewrite Forall_forall in L, Lo.
    destruct Hx as [(r & Hr & Hx)|(r & Hr & Hx)]; [specialize (L r Hr)|specialize (Lo r Hr)]; unfold in_range in Hx; lia. }
  destruct (remove_low l TOKEN_EPSILON V' L') as (l' & E & V2 & L2 & M2). rewrite E. exists (IS l' false). split; auto.
  constructor; auto. cbn [intervals]. intros x Hx N. apply M2 in Hx. apply M' in Hx. destruct Hx; auto.
Qed.
Lemma sound_set_impl : forall (P Q : Z -> Prop) s, (forall x, P x -> Q x) -> sound_set P s -> sound_set Q s.
Proof. intros P Q s H []. constructor; auto. Qed.

Lemma get_state_at' : forall a i s, state_at a i = Some s -> get_state a i = Val s.
Proof. intros. apply get_state_at; auto. Qed.

Lemma hist_sound_set : forall rs, all_valid (intervals (hist rs)) /\ forall x, member x (intervals (hist rs)) -> member x rs.
Proof.
  intros rs. destruct (insertions_sound rs [] (Forall_nil _)) as [V M]. split; auto. intros x H. apply M in H.
  destruct H as [H|H]; auto. destruct (member_nil _ H).
Qed.

Lemma loop_sound : forall a, well_formed a -> token_labels a -> forall conts stack, returns_to a stack conts ->
  forall (P : Z -> Prop) following expected, sound_set P expected ->
  (contains following TOKEN_EPSILON = true -> forall x, rest_of a conts x -> P x) ->
  exists n f' e', (forall fuel, (n <= fuel)%nat -> expected_loop fuel a following expected stack = Val (f', e')) /\
    sound_set P e' /\ (contains f' TOKEN_EPSILON = true -> P TOKEN_EOF).
Proof.
  intros a wf T conts. induction conts as [|f conts IH]; intros stack RT P following expected SS HP; inversion RT as [|inv f0 stack' conts0 (s & g & r & p & ts & E & NS & Et) RT']; subst.
  - exists 0%nat, following, expected. split; [auto|]. split; auto. intros H. apply HP; auto. reflexivity.
  - destruct (contains following TOKEN_EPSILON) eqn:C.
    2: { exists 0%nat, following, expected. split; [intros fuel _; cbn [expected_loop]; rewrite C; reflexivity|]. split; auto. rewrite C. discriminate. }
    destruct (proj2 wf inv s E) as [_ W]. destruct (W NS (RuleTr g f r p)) as (_ & _ & Hf & _); [rewrite Et; left; auto|].
    destruct (state_at a f) as [fs|] eqn:Ef; [|unfold exists_state in Hf; congruence].
    destruct (next_tokens_hist a f fs wf Ef) as (n1 & rs & H1 & H2 & H3 & _).
    destruct (hist_sound_set rs) as [V M].
    destruct (merge_sound P (fun x => can_start_with a (f, []) x) expected (IS (intervals (hist rs)) true)) as (e1 & R1 & S1); auto.
    { cbn [intervals]. apply valid_low; auto. intros x Hx. apply (lookahead_low a f); auto. }
    { cbn [intervals]. intros x Hx N. apply lookahead_start; auto. }
    assert (S2 : sound_set P e1).
    { eapply sound_set_impl; [|exact S1]. intros x [H|H]; auto. apply HP; auto. apply rest_cons. auto. }
    destruct (IH stack' RT' P (IS (intervals (hist rs)) true) e1 S2) as (n2 & f' & e' & R2 & S3 & F3).
    { intros Hc x Hx. apply HP; auto. apply rest_cons. right. split; auto. apply lookahead_eps; auto. apply H3. apply M.
      apply contains_sound in Hc. exact Hc. }
    exists (Nat.max n1 n2), f', e'. split; auto. intros fuel L. cbn [expected_loop]. rewrite C. cbn [negb].
    rewrite (get_state_at _ _ _ E). cbn [obindo]. rewrite Et. cbn [nth_error unwrap obindo].
    rewrite (get_state_at _ _ _ Ef). cbn [obindo]. rewrite H1 by lia. cbn [obindo]. rewrite R1. cbn [unwrap obindo]. apply R2. lia.
Qed.

Lemma expected_sound : forall a i s stack conts, well_formed a -> token_labels a -> state_at a i = Some s -> returns_to a stack conts ->
  exists n r, (forall fuel, (n <= fuel)%nat -> get_expected_tokens fuel a i stack = Val r) /\
    forall x, contains r x = true -> x <> TOKEN_EPSILON -> can_start_with a (i, conts) x \/ (x = TOKEN_EOF /\ can_finish a (i, conts)).
Proof.
  intros a i s stack conts wf T E RT.
  destruct (next_tokens_hist a i s wf E) as (n1 & rs & H1 & H2 & H3 & _). destruct (hist_sound_set rs) as [V M].
  set (P := rest_of a (i :: conts)).
  destruct (contains (IS (intervals (hist rs)) true) TOKEN_EPSILON) eqn:C.
  2: { exists n1, (IS (intervals (hist rs)) true). split.
       - intros fuel L. unfold get_expected_tokens. rewrite (get_state_at _ _ _ E). cbn [obindo]. rewrite H1 by auto. cbn [obindo]. rewrite C. reflexivity.
       - intros x Hx N. apply (proj2 (rest_cons a i conts x)). left. apply lookahead_start; auto. apply H3, M. apply contains_sound in Hx. exact Hx. }
  assert (CF : can_finish a (i, [])) by (apply lookahead_eps; auto; apply H3, M; apply contains_sound in C; exact C).
  destruct (merge_sound (fun _ => False) (fun x => can_start_with a (i, []) x) is_new (IS (intervals (hist rs)) true)) as (e1 & R1 & S1); auto.
  { constructor; cbn; auto; try constructor. intros x Hx. destruct (member_nil _ Hx). }
  { cbn [intervals]. apply valid_low; auto. intros x Hx. apply (lookahead_low a i); auto. }
  { cbn [intervals]. intros x Hx N. apply lookahead_start; auto. }
  destruct (loop_sound a wf T conts stack RT P (IS (intervals (hist rs)) true) e1) as (n2 & f' & e' & R2 & S3 & F3).
  { eapply sound_set_impl; [|exact S1]. intros x [[]|H]. apply rest_cons. auto. }
  { intros _ x Hx. apply rest_cons. auto. }
  exists (Nat.max n1 n2), (if contains f' TOKEN_EPSILON then add_one e' TOKEN_EOF else e'). split.
  - intros fuel L. unfold get_expected_tokens. rewrite (get_state_at _ _ _ E). cbn [obindo]. rewrite H1 by lia. cbn [obindo]. rewrite C. cbn [negb].
    rewrite R1. cbn [unwrap obindo]. rewrite R2 by lia. reflexivity.
  - intros x Hx N. change (P x). destruct S3 as [S31 S32 S33 S34]. destruct (contains f' TOKEN_EPSILON) eqn:Cf.
    + unfold add_one, add_range in Hx. apply contains_sound in Hx. cbn [add_interval intervals] in Hx.
      assert (X : member x (fold_left (fun l r => add_interval_l r l) [Iv TOKEN_EOF TOKEN_EOF] (intervals e'))) by exact Hx.
      apply insertions_sound in X; auto. destruct X as [X|X]; auto. apply member_cons in X. destruct X as [X|X]; [|destruct (member_nil _ X)].
      unfold in_range in X. cbn in X. assert (x = TOKEN_EOF) as -> by (unfold TOKEN_EOF in *; lia). auto.
    + apply contains_sound in Hx. auto.
Qed.

(** ** Exactness *)
Definition exact_lookahead (a : atn) (j : Z) (r : interval_set) : Prop :=
  (exists s n, state_at a j = Some s /\ forall fuel, (n <= fuel)%nat -> next_tokens fuel a s = Val r) /\
  canonical (intervals r) /\ forall x, contains r x = true <-> lookahead_of a j x.

Lemma merge_exact : forall s o, read_only s = false -> canonical (intervals s) -> canonical (intervals o) ->
  narrow_history (intervals s) (intervals o) ->
  exists s', remove_one (add_set s o) TOKEN_EPSILON = Some s' /\ read_only s' = false /\ canonical (intervals s') /\
    forall x, contains s' x = true <-> (contains s x = true \/ contains o x = true) /\ x <> TOKEN_EPSILON.
Proof.
  intros s o R Cs Co N. destruct (narrow_history_spec _ _ Cs N) as [C M].
  destruct (remove_one_spec (add_set s o) TOKEN_EPSILON) as (s' & E & R' & C' & M').
  { rewrite add_set_fold. auto. } { rewrite add_set_fold. auto. }
  exists s'. split; auto. split; auto. split; auto. intros x. rewrite !contains_spec by auto. rewrite M', add_set_fold. cbn [intervals]. rewrite M. tauto.
Qed.

Lemma loop_exact : forall a, well_formed a -> token_labels a -> forall conts stack sets, returns_to a stack conts ->
  Forall2 (exact_lookahead a) conts sets -> forall (P : Z -> Prop) following expected,
  read_only expected = false -> canonical (intervals expected) -> (forall x, contains expected x = true <-> P x) ->
  narrow_merges expected sets ->
  exists n r, (forall fuel, (n <= fuel)%nat ->
     (let! (f', e') := expected_loop fuel a following expected stack in Val (if contains f' TOKEN_EPSILON then add_one e' TOKEN_EOF else e'))%outcome = Val r) /\ canonical (intervals r) /\
    ((forall x, P x -> x <> TOKEN_EPSILON) -> forall x, contains r x = true <-> P x \/ (contains following TOKEN_EPSILON = true /\ rest_of a conts x)).
Proof.
  intros a wf T conts. induction conts as [|f conts IH]; intros stack sets RT FS P following expected RO CE HE NM;
    inversion RT as [|inv f0 stack' conts0 (s & g & r & p & ts & E & NS & Et) RT']; subst; inversion FS as [|f1 r1 c1 sets' EX FS']; subst.
  - exists 0%nat, (if contains following TOKEN_EPSILON then add_one expected TOKEN_EOF else expected). split; [reflexivity|].
    assert (TL : (touched (Iv TOKEN_EOF TOKEN_EOF) (intervals expected) <= 2)%nat) by (apply touched_one_le2; auto).
    destruct (add_interval_l_spec (Iv TOKEN_EOF TOKEN_EOF) _ CE TL) as [A1 A2]. split; [destruct (contains following TOKEN_EPSILON); auto|].
    intros HP x. destruct (contains following TOKEN_EPSILON) eqn:C; [|rewrite HE; cbn; intuition discriminate].
    rewrite contains_spec by exact A1. unfold add_one, add_range, add_interval. cbn [intervals]. rewrite A2.
    rewrite <- contains_spec, HE by auto. cbn [rest_of]. unfold in_range. cbn [iv_a iv_b]. intuition; unfold TOKEN_EOF in *; lia.
  - destruct (contains following TOKEN_EPSILON) eqn:C.
    2: { exists 0%nat, expected. split; [intros fuel _; cbn [expected_loop]; rewrite C; cbn [negb obindo]; rewrite C; reflexivity|].
         split; auto. intros HP x. rewrite HE. intuition discriminate. }
    destruct EX as ((fs & n1 & Ef & H1) & C1 & X1). cbn [narrow_merges] in NM. destruct NM as [N1 N2].
    destruct (merge_exact expected r1 RO CE C1 N1) as (e1 & R1 & RO1 & CE1 & HE1). rewrite R1 in N2.
    destruct (IH stack' sets' RT' FS' (fun x => (P x \/ lookahead_of a f x) /\ x <> TOKEN_EPSILON) r1 e1 RO1 CE1) as (n2 & res & R2 & CR & X2); auto.
    { intros x. rewrite HE1, HE, X1. tauto. }
    exists (Nat.max n1 n2), res. split; [|split; auto].
    + intros fuel L. rewrite <- (R2 fuel) by lia. cbn [expected_loop]. rewrite C. cbn [negb].
      rewrite (get_state_at _ _ _ E). cbn [obindo]. rewrite Et. cbn [nth_error unwrap obindo].
      rewrite (get_state_at _ _ _ Ef). cbn [obindo]. rewrite H1 by lia. cbn [obindo]. rewrite R1. cbn [unwrap obindo]. reflexivity.
    + intros HP x. rewrite X2 by tauto. rewrite rest_cons, X1.
      assert (L1 : lookahead_of a f TOKEN_EPSILON <-> can_finish a (f, [])).
      { split; [apply lookahead_eps; auto|]. intros H. right. auto. }
      rewrite L1. specialize (HP x). split.
      * intros [[[H|H] N]|H]; [auto| |tauto]. right. split; auto. left. apply lookahead_start; auto.
      * intros [H|[_ [H|H]]]; auto. left. split; [right; left; auto|]. intros ->. apply (no_eps _ _ T H).
Qed.

Lemma expected_exact : forall a i s stack conts sets, well_formed a -> token_labels a -> state_at a i = Some s -> returns_to a stack conts ->
  Forall2 (exact_lookahead a) (i :: conts) sets -> narrow_merges is_new sets ->
  exists n r, (forall fuel, (n <= fuel)%nat -> get_expected_tokens fuel a i stack = Val r) /\ canonical (intervals r) /\
    forall x, contains r x = true <-> can_start_with a (i, conts) x \/ (x = TOKEN_EOF /\ can_finish a (i, conts)).
Proof.
  intros a i s stack conts sets wf T E RT FS NM. inversion FS as [|i0 r0 c0 sets' ((s0 & n1 & E0 & H1) & C1 & X1) FS']; subst.
  rewrite E in E0. injection E0 as <-. cbn [narrow_merges] in NM. destruct NM as [N1 N2].
  destruct (merge_exact is_new r0 eq_refl canonical_nil C1 N1) as (e1 & R1 & RO1 & CE1 & HE1). rewrite R1 in N2.
  assert (L1 : lookahead_of a i TOKEN_EPSILON <-> can_finish a (i, [])).
  { split; [apply lookahead_eps; auto|]. intros H. right. auto. }
  destruct (contains r0 TOKEN_EPSILON) eqn:C.
  2: { exists n1, r0. split; [|split; auto].
       - intros fuel L. unfold get_expected_tokens. rewrite (get_state_at _ _ _ E). cbn [obindo]. rewrite H1 by auto. cbn [obindo]. rewrite C. reflexivity.
       - intros x. rewrite X1. change (lookahead_of a i x <-> rest_of a (i :: conts) x). rewrite rest_cons.
         assert (NF : ~ can_finish a (i, [])) by (rewrite <- L1, <- X1, C; discriminate). unfold lookahead_of. tauto. }
  destruct (loop_exact a wf T conts stack sets' RT FS' (fun x => lookahead_of a i x /\ x <> TOKEN_EPSILON) r0 e1 RO1 CE1) as (n2 & res & R2 & CR & X2); auto.
  { intros x. rewrite HE1, X1. split; [intros [[H|H] N]; [discriminate|auto]|]. intros [H N]. auto. }
  exists (Nat.max n1 n2), res. split; [|split; auto].
  - intros fuel L. unfold get_expected_tokens. rewrite (get_state_at _ _ _ E). cbn [obindo]. rewrite H1 by lia. cbn [obindo]. rewrite C. cbn [negb].
    rewrite R1. cbn [unwrap obindo]. apply R2. lia.
  - intros x. rewrite X2 by tauto. change (can_start_with a (i, conts) x \/ (x = TOKEN_EOF /\ can_finish a (i, conts))) with (rest_of a (i :: conts) x).
    rewrite rest_cons. rewrite X1 in C. apply L1 in C. split.
    + intros [[H N]|[_ H]]; auto. left. apply lookahead_start; auto.
    + intros [H|[_ H]].
      * left. split; [left; auto|]. intros ->. apply (no_eps _ _ T H).
      * right. split; auto. apply X1, L1. auto.
Qed.

(** ** Lookahead in a full context *)
Lemma stack_ctx : forall a stack conts root, Forall (fun i => 0 <= i) stack -> returns_to a stack conts ->
  exists c, from_rule_context (follow_state a) (stack ++ [root]) = Val c /\ to_ctx true conts = Some c.
Proof.
  intros a stack conts root F R. induction R as [|inv f stack conts (s & g & r & p & ts & E & NS & Et) R IH]; cbn [app].
  - exists EMPTY. auto.
  - inversion F as [|? ? F1 F2]; subst. destruct (IH F2) as (c & R1 & R2). cbn [from_rule_context].
    destruct (stack ++ [root]) as [|x l] eqn:El; [destruct stack; discriminate|]. replace (inv =? -1) with false by lia.
    rewrite R1. cbn [obindo]. unfold follow_state, vget. unfold state_at in E. rewrite E, Et. cbn [unwrap obindo].
    exists (Singleton f (Some c)). split; auto. cbn [to_ctx]. rewrite R2. reflexivity.
Qed.
Lemma returns_exist : forall a stack conts, well_formed a -> returns_to a stack conts -> Forall (fun i => 0 <= i) stack /\ Forall (exists_state a) conts.
Proof.
  intros a stack conts wf R. induction R as [|inv f stack conts (s & g & r & p & ts & E & NS & Et) R [IH1 IH2]]; split; constructor; auto.
  - unfold state_at in E. destruct (Z.ltb_spec inv 0); [discriminate|lia].
  - destruct (proj2 wf inv s E) as [_ W]. destruct (W NS (RuleTr g f r p)) as (_ & _ & Hf & _); auto. rewrite Et; left; auto.
Qed.
