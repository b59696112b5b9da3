(** Proofs about error recovery. *)
From Coq Require Import ZArith List Bool Lia.
From Coq Require Import ZifyBool ZifyNat.
From Verif Require Import Outcome IntervalSetModel IntervalSetSpec IntervalSetProps AtnModel CharStreamModel TokenStreamModel TokenStreamSpec TokenStreamProofs CommonTokenStreamProofs.
From Verif Require Import Ll1Model ParserModel ParserSpec ParserTreeProofs ParserRunProofs ParserEventProofs ParserStreamProofs RecoverSpec.
Import ListNotations.
Local Open Scope Z_scope.

(** ** CommonTokenStream *)
Section Common.
  Variable src : nat -> tok.
  Variable ch : Z.
  Variable fuel : nat.
  Variable e : nat.
  Hypothesis He : eof_number src e.
  Hypothesis Hf : (e <= fuel)%nat.
  Notation stream := (common_stream src ch fuel).
  Definition to_come (s : uts) : list tok := tokens_from src ch e (Z.to_nat (cur s)).

  Lemma seen_here : forall c, c = 0%nat \/ visible src ch c -> seen_b src ch c = true.
  Proof. intros. now apply seen_visible. Qed.
  Lemma from_step : forall c j, c = 0%nat \/ visible src ch c -> first_visible src ch (S c) j -> (j <= e)%nat ->
    tokens_from src ch e c = tok_at src c :: tokens_from src ch e j.
  Proof.
    intros c j Hc (Hj & Hv & Hno) Hje. unfold tokens_from.
    replace (S e - c)%nat with (1 + ((j - S c) + (S e - j)))%nat by lia. rewrite seq_app. cbn [seq app filter].
    rewrite (seen_here c Hc). cbn [map]. f_equal. rewrite seq_app, filter_app. 
    rewrite (filter_none _ _ (seq _ (j - S c))).
    - cbn [app]. now replace (c + 1 + (j - S c))%nat with j by lia.
    - intros m Hm. apply in_seq in Hm. destruct (seen_b src ch m) eqn:E; auto. apply (proj1 (seen_visible src ch fuel m)) in E as [->|E]; [lia|].
      exfalso. apply (Hno m); auto. lia.
  Qed.
  Lemma from_eof : tokens_from src ch e e = [tok_at src e].
  Proof.
    unfold tokens_from. replace (S e - e)%nat with 1%nat by lia. cbn [seq filter]. rewrite seen_here; auto. right. right. apply He.
  Qed.
  Lemma from_ends : forall c, (c <= e)%nat -> ends_at_eof (tokens_from src ch e c).
  Proof.
    intros c Hc. unfold tokens_from. replace (S e - c)%nat with ((e - c) + 1)%nat by lia. rewrite seq_app, filter_app, map_app.
    replace (c + (e - c))%nat with e by lia. cbn [seq filter]. rewrite (seen_here e) by (right; right; apply He).
    eexists _, _. split; [reflexivity|]. split; [apply He|].
    apply Forall_map, Forall_forall. intros m Hm. apply filter_In in Hm as [Hm _]. apply in_seq in Hm.
    apply (proj2 He). lia.
  Qed.
  Lemma reading_le : forall n s c, crep src n s -> cur s = Z.of_nat c -> (c < n)%nat /\ (c <= e)%nat.
  Proof.
    intros n s c R Hc. pose proof (crep_cur _ _ _ R). destruct R as [R Hp]. pose proof (r_p _ _ _ _ R).
    pose proof (eof_le src n s e R (proj1 He)). split; lia.
  Qed.
  Lemma first_visible_le : forall c j, (c <= e)%nat -> first_visible src ch c j -> (j <= e)%nat.
  Proof.
    intros c j Hc (Hj & Hv & Hno). destruct (le_lt_dec j e); auto. exfalso. apply (Hno e); [lia|]. right. apply He.
  Qed.
  Lemma from_first : forall c t l, c = 0%nat \/ visible src ch c -> (c <= e)%nat -> tokens_from src ch e c = t :: l -> t = tok_at src c.
  Proof.
    intros c t l Hv Hc H. unfold tokens_from in H. replace (S e - c)%nat with (1 + (e - c))%nat in H by lia. rewrite seq_app in H.
    cbn [seq app filter] in H. rewrite (seen_here c Hv) in H. cbn [map] in H. inversion H; auto.
  Qed.

  Lemma common_get : forall n s i, crep src n s -> (i < n)%nat -> TokenStreamModel.get s (Z.of_nat i) = Done (tok_at src i).
  Proof.
    intros n s i R Hi. pose proof (crep_cur _ _ _ R) as Hpc. destruct R as [R Hp].
    unfold TokenStreamModel.get, get_buffer_start_index. replace (Z.of_nat i - (cur s - p s)) with (Z.of_nat i) by lia.
    now rewrite (rep_get src n s i R Hi).
  Qed.

  Lemma common_input : input stream (reading src ch) to_come.
  Proof.
    constructor; cbn [s_lt s_get s_index s_consume common_stream].
    - intros s (n & c & R & Hc & Hv). unfold to_come. rewrite Hc, Nat2Z.id. apply from_ends. eapply reading_le; eauto.
    - intros s t l (n & c & R & Hc & Hv) H. unfold to_come in H. rewrite Hc, Nat2Z.id in H.
      destruct (reading_le _ _ _ R Hc) as [L1 L2]. rewrite (from_first _ _ _ Hv L2 H) in *.
      rewrite Hc, (common_get n s c R L1). cbn [of_out]. split; auto. cbn [t_index tok_at set_index]. now rewrite (common_get n s c R L1).
    - intros s (n & c & R & Hc & Hv). destruct (reading_le _ _ _ R Hc) as [L1 L2].
      replace (Z.max (cur s - 1) 0) with (Z.of_nat (c - 1)) by lia. rewrite (common_get n s (c - 1) R) by lia. eexists. reflexivity.
    - intros s t l (n & c & R & Hc & Hv) H. unfold to_come in H. rewrite Hc, Nat2Z.id in H.
      destruct (reading_le _ _ _ R Hc) as [L1 L2]. rewrite (from_first _ _ _ Hv L2 H).
      destruct (clt_spec src ch fuel n s c 1 e R Hc) as (s' & n' & j & E & _ & _ & _ & _ & _ & K); [lia|apply He|lia|].
      rewrite E. cbn [of_out]. replace (Z.to_nat 1) with 1%nat in K by lia. inversion K as [|k0 j0 K0|k0 j0 j1 K0]; subst; [eauto|inversion K0|inversion K0].
    - intros s t l (n & c & R & Hc & Hv) H. unfold to_come in H. rewrite Hc, Nat2Z.id in H.
      destruct (reading_le _ _ _ R Hc) as [L1 L2]. pose proof (from_first _ _ _ Hv L2 H) as Ht.
      destruct (clt_spec src ch fuel n s c 2 e R Hc) as (s' & n' & j & E & _ & _ & _ & _ & _ & K); [lia|apply He|lia|].
      rewrite E. cbn [of_out]. exists s'. do 3 f_equal. replace (Z.to_nat 2) with 2%nat in K by lia.
      inversion K as [|k0 j0 K0 Ke|k0 j0 j1 K0 Ke Kf]; subst; (inversion K0; subst; [|match goal with X : kth_visible _ _ _ 0 _ |- _ => inversion X end..]).
      + assert (j = e). { destruct (le_lt_dec e j); [lia|]. exfalso. eapply (proj2 He); eauto. } subst j.
        rewrite from_eof in H. inversion H; subst. reflexivity.
      + assert (j0 <> e) by (intros ->; apply Ke; apply He). pose proof (first_visible_le (S j0) j ltac:(lia) Kf) as Hj.
        rewrite (from_step j0 j Hv Kf Hj) in H. inversion H as [H1]. destruct (tokens_from src ch e j) as [|u l'] eqn:Eu.
        * exfalso. destruct (from_ends j Hj) as (b & x & B & _). rewrite Eu in B. destruct b; discriminate.
        * cbn [hd]. symmetry. eapply from_first; eauto. right. apply Kf.
    - intros s k s' t (n & c & R & Hc & Hv) H. apply of_out_val in H.
      destruct (clt_rep src ch fuel _ _ _ _ _ R H) as (n' & R' & _ & Hc' & _).
      split; [exists n', c; rewrite Hc'; auto|]. unfold to_come. now rewrite Hc'.
    - intros s t u l (n & c & R & Hc & Hv) H. unfold to_come in H. rewrite Hc, Nat2Z.id in H.
      destruct (reading_le _ _ _ R Hc) as [L1 L2].
      destruct (eof_dec src c) as [Hec|Hec].
      { exfalso. assert (c = e). { destruct (le_lt_dec e c); [lia|]. exfalso. eapply (proj2 He); eauto. } subst c. rewrite from_eof in H. discriminate. }
      assert (c <> e) by (intros ->; apply Hec; apply He).
      destruct (cconsume_spec src ch fuel n s c R Hc) as [_ H2].
      destruct (H2 e Hec (proj1 He) ltac:(lia)) as (s1 & n1 & j & E1 & R1 & _ & Hj & _ & Hfv).
      pose proof (first_visible_le (S c) j ltac:(lia) Hfv) as Hje. rewrite (from_step c j Hv Hfv Hje) in H. inversion H as [H1].
      rewrite E1. cbn [of_out]. exists s1. split; auto. split; [exists n1, j; split; auto; split; auto; right; apply Hfv|].
      split; [unfold to_come; now rewrite Hj, Nat2Z.id|]. rewrite Hc, Hj. destruct Hfv. lia.
  Qed.
End Common.

(** ** One operation of the strategy *)
Definition node_for (err : bool) (t : tok) : kid := if err then KErr t else KTerm t.

Section Recover.
  Context {S : Type}.
  Variable ts : stream_ops S.
  Variable a : atn.
  Variable names : naming.
  Variable fuel : nat.
  Variable Inv : S -> Prop.
  Variable ahead : S -> list tok.
  Hypothesis Hin : input ts Inv ahead.
  Notation flat := (flat no_inv no_past).
  Notation Hist := (no_history ts).
  Ltac step H := match type of H with obindo ?x _ = Val _ => let E := fresh "E" in destruct x eqn:E; cbn [obindo] in H; [|discriminate|discriminate] end.

  Lemma flat_grew : forall acts (p p' : parser S), flat acts p p' -> grew (if_shown p (map kid_of acts)) p p'.
  Proof.
    intros acts p p' [F1 F2 F3 F4 F5 F6 F7 F8 F9]. split; auto. rewrite F6.
    assert (K : kids_of p acts = if_shown p (map kid_of acts)) by reflexivity. rewrite K. split.
    - destruct (p_ctx p); cbn; auto. apply update_length.
    - intros j c Hj. assert (C0 : set_children (x_children c ++ []) c = c) by (rewrite app_nil_r; destruct c; auto).
      destruct (p_ctx p) as [i|]; cbn [grow same_ctx]; [|now rewrite C0].
      destruct (Nat.eqb_spec i j) as [->|D]; [now rewrite (nth_update_same _ _ _ _ Hj)|].
      rewrite nth_update_other; auto. now rewrite C0.
  Qed.
  Lemma grew_has : forall ks (p p' : parser S), grew ks p p' -> has_ctx p -> has_ctx p'.
  Proof. intros ks p p' (G1 & G2 & G3) (i & c & Hi & Hc). exists i. eexists. split; [congruence|]. eapply G3; eauto. Qed.
  Lemma flat_has : forall acts (p p' : parser S), flat acts p p' -> has_ctx p -> has_ctx p'.
  Proof. intros. eapply grew_has; eauto. eapply flat_grew; eauto. Qed.

  (** [q] is [p] after looking ahead *)
  Definition looked (p q : parser S) : Prop :=
    q = with_input p (p_input q) /\ Inv (p_input q) /\ ahead (p_input q) = ahead (p_input p) /\
    s_index ts (p_input q) = s_index ts (p_input p).
  Lemma la_looked : forall p k q t, Inv (p_input p) -> la ts p k = Val (q, t) -> looked p q.
  Proof.
    intros p k q t HI H. unfold la, lt in H. destruct (s_lt ts (p_input p) k) as [[s o]| |] eqn:E; cbn [obindo] in H; try discriminate.
    inversion H; subst. destruct (in_lt _ _ _ Hin _ _ _ _ HI E) as (A & B & C). repeat split; auto.
  Qed.
  Lemma la1 : forall p t l, Inv (p_input p) -> ahead (p_input p) = t :: l -> exists q, la ts p 1 = Val (q, t_type t) /\ looked p q.
  Proof.
    intros p t l HI H. destruct (in_look1 _ _ _ Hin _ _ _ HI H) as [s E]. exists (with_input p s).
    assert (L : la ts p 1 = Val (with_input p s, t_type t)) by (unfold la, lt; now rewrite E). split; auto. eapply la_looked; eauto.
  Qed.
  Lemma la2 : forall p t l, Inv (p_input p) -> ahead (p_input p) = t :: l -> exists q, la ts p 2 = Val (q, t_type (hd t l)) /\ looked p q.
  Proof.
    intros p t l HI H. destruct (in_look2 _ _ _ Hin _ _ _ HI H) as [s E]. exists (with_input p s).
    assert (L : la ts p 2 = Val (with_input p s, t_type (hd t l))) by (unfold la, lt; now rewrite E). split; auto. eapply la_looked; eauto.
  Qed.
  Lemma cur_ahead : forall p t l, Inv (p_input p) -> ahead (p_input p) = t :: l -> get_current_token ts p = Val t.
  Proof. intros p t l HI H. apply (in_get _ _ _ Hin _ _ _ HI H). Qed.
  Lemma looked_flat : forall p q, looked p q -> flat [] p q.
  Proof. intros p q (E & _). rewrite E. apply with_input_flat. intros [ ]. Qed.
  Lemma ahead_cons : forall s, Inv s -> exists t l, ahead s = t :: l.
  Proof. intros s HI. destruct (in_ends _ _ _ Hin _ HI) as ([|x b] & e & E & _); cbn in E; eauto. Qed.
  Lemma ahead_more : forall s t u l, Inv s -> ahead s = t :: u :: l -> t_type t <> EOF_TYPE.
  Proof.
    intros s t u l HI H. destruct (in_ends _ _ _ Hin _ HI) as ([|x b] & e & E & _ & F); rewrite H in E; inversion E; subst.
    inversion F; auto.
  Qed.
  Lemma ahead_last : forall s t, Inv s -> ahead s = [t] -> t_type t = EOF_TYPE.
  Proof.
    intros s t HI H. destruct (in_ends _ _ _ Hin _ HI) as ([|x b] & e & E & Et & F); rewrite H in E; inversion E; subst; auto.
    destruct b; discriminate.
  Qed.

  Lemma consume_notices : forall rec p p', consume ts rec p = Val p' -> p_notices p' = p_notices p /\ p_errors p' = p_errors p.
  Proof.
    intros rec p p' H. unfold consume in H. step H. step H. assert (N : p_notices a1 = p_notices p /\ p_errors a1 = p_errors p).
    { destruct (_ =? _); [inversion E0; subst; auto|]. step E0. inversion E0; subst. auto. }
    destruct (_ || _); [|inversion H; subst; auto]. step H. destruct rec; inversion H; subst; auto.
  Qed.

  Lemma consume_moves : forall rec p t u l, has_ctx p -> Inv (p_input p) -> ahead (p_input p) = t :: u :: l ->
    exists p', consume ts rec p = Val p' /\ flat [Took t rec] p p' /\ Inv (p_input p') /\ ahead (p_input p') = u :: l /\
      s_index ts (p_input p) < s_index ts (p_input p') /\ p_notices p' = p_notices p.
  Proof.
    intros rec p t u l (i & c & Hi & Hc) HI H.
    assert (exists p', consume ts rec p = Val p' /\ Inv (p_input p') /\ ahead (p_input p') = u :: l /\ s_index ts (p_input p) < s_index ts (p_input p')) as (p' & E & I' & A' & X').
    { unfold consume. rewrite (cur_ahead _ _ _ HI H). cbn [obindo]. pose proof (ahead_more _ _ _ _ HI H).
      destruct (Z.eqb_spec (t_type t) EOF_TYPE) as [Q|_]; [contradiction|].
      destruct (in_consume _ _ _ Hin _ _ _ _ HI H) as (s' & Es & Is & As & Xs). rewrite Es. cbn [obindo p_build p_listeners with_input].
      destruct (_ || _).
      - unfold get_ctx. cbn [p_ctx with_input]. rewrite Hi. cbn [unwrap obindo]. eexists. split; [reflexivity|]. destruct rec; cbn; auto.
      - eexists. split; [reflexivity|]. cbn. auto. }
    exists p'. destruct (consume_flat ts no_inv no_past Hist _ _ _ E) as (t' & Ht & F). rewrite (cur_ahead _ _ _ HI H) in Ht. inversion Ht; subst t'.
    pose proof (ahead_more _ _ _ _ HI H) as Q. destruct (Z.eqb_spec (t_type t) (-1)) as [Q'|_]; [contradiction|].
    destruct (consume_notices _ _ _ E). auto 10.
  Qed.
  Lemma consume_at_end : forall rec p t, has_ctx p -> Inv (p_input p) -> ahead (p_input p) = [t] ->
    exists p', consume ts rec p = Val p' /\ flat [Saw t rec] p p' /\ p_input p' = p_input p /\ p_notices p' = p_notices p.
  Proof.
    intros rec p t (i & c & Hi & Hc) HI H.
    assert (exists p', consume ts rec p = Val p' /\ p_input p' = p_input p) as (p' & E & I').
    { unfold consume. rewrite (cur_ahead _ _ _ HI H). cbn [obindo]. pose proof (ahead_last _ _ HI H) as Q. rewrite Q.
      change (EOF_TYPE =? EOF_TYPE) with true. cbn [obindo].
      destruct (_ || _); [|eauto].
      unfold get_ctx. rewrite Hi. cbn [unwrap obindo]. eexists. split; [reflexivity|]. destruct rec; auto. }
    exists p'. destruct (consume_flat ts no_inv no_past Hist _ _ _ E) as (t' & Ht & F). rewrite (cur_ahead _ _ _ HI H) in Ht. inversion Ht; subst t'.
    pose proof (ahead_last _ _ HI H) as Q. rewrite Q in F. destruct (consume_notices _ _ _ E). auto 10.
  Qed.

  (** ** Skipping tokens *)
  Definition wanted (set : interval_set) (t : tok) : Prop := t_type t = EOF_TYPE \/ contains set (t_type t) = true.
  Lemma consume_loop_skips : forall l n rec set p, (length l <= n)%nat -> has_ctx p -> Inv (p_input p) -> ahead (p_input p) = l ->
    forall t r, l = t :: r ->
    exists p' skipped rest, consume_loop ts n rec set p (t_type t) = Val p' /\ l = skipped ++ rest /\
      Forall (fun t => t_type t <> EOF_TYPE /\ contains set (t_type t) = false) skipped /\
      (exists t r, rest = t :: r /\ wanted set t) /\
      flat (map (fun t => Took t rec) skipped) p p' /\ Inv (p_input p') /\ ahead (p_input p') = rest /\ p_notices p' = p_notices p /\
      (skipped = [] -> p' = p) /\ (skipped <> [] -> s_index ts (p_input p) < s_index ts (p_input p')).
  Proof.
    induction l as [|t l IH]; intros n rec set p Hn HC HI HA t0 r E; [discriminate|]. inversion E; subst t0 r. clear E.
    assert (Stop : wanted set t -> exists p' skipped rest, consume_loop ts n rec set p (t_type t) = Val p' /\ t :: l = skipped ++ rest /\
      Forall (fun t => t_type t <> EOF_TYPE /\ contains set (t_type t) = false) skipped /\
      (exists t r, rest = t :: r /\ wanted set t) /\
      flat (map (fun t => Took t rec) skipped) p p' /\ Inv (p_input p') /\ ahead (p_input p') = rest /\ p_notices p' = p_notices p /\
      (skipped = [] -> p' = p) /\ (skipped <> [] -> s_index ts (p_input p) < s_index ts (p_input p'))).
    { intros Hw. exists p, [], (t :: l). split.
      - destruct n; cbn [consume_loop]; destruct Hw as [Hw|Hw]; rewrite Hw, ?andb_false_r; reflexivity.
      - split; [reflexivity|]. split; [constructor|]. split; [exists t, l; auto|]. split; [apply flat_refl|]. repeat (split; [solve [auto]|]). congruence. }
    destruct (Z.eqb_spec (t_type t) EOF_TYPE) as [Q|Q]; [apply Stop; left; auto|].
    destruct (contains set (t_type t)) eqn:EC; [apply Stop; right; auto|]. clear Stop.
    destruct l as [|u l]; [exfalso; apply Q; eapply ahead_last; eauto|].
    destruct n as [|n]; [cbn in Hn; lia|]. cbn [consume_loop]. rewrite EC.
    destruct (Z.eqb_spec (t_type t) EOF_TYPE) as [Q'|_]; [contradiction|]. cbn [negb andb].
    destruct (consume_moves rec p t u l HC HI HA) as (p1 & E1 & F1 & I1 & A1 & X1 & N1). rewrite E1. cbn [obindo].
    destruct (la1 p1 u l I1 A1) as (p2 & E2 & L2). rewrite E2. cbn [obindo].
    pose proof (looked_flat _ _ L2) as F2. destruct L2 as (L2 & I2 & A2 & X2).
    destruct (IH n rec set p2) with (t := u) (r := l) as (p' & sk & rest & B1 & B2 & B3 & B4 & B5 & B6 & B7 & B8 & B9 & B10); auto.
    { cbn in *; lia. }
    { eapply flat_has; [exact F2|]. eapply flat_has; eauto. }
    { congruence. }
    exists p', (t :: sk), rest. split; [exact B1|]. split; [now rewrite B2|]. split; [constructor; auto|]. split; [exact B4|].
    split; [change (map _ (t :: sk)) with ([Took t rec] ++ [] ++ map (fun t => Took t rec) sk); eapply flat_trans; [exact F1|eapply flat_trans; eauto]|].
    split; auto. split; auto. split; [|split; [discriminate|]].
    - rewrite B8, L2. cbn. auto.
    - intros _. destruct sk; [rewrite B9 by auto; lia|]. specialize (B10 ltac:(discriminate)). lia.
  Qed.

  Lemma consume_until_skips : forall d set p, (length (ahead (p_input p)) <= fuel)%nat -> has_ctx p -> Inv (p_input p) ->
    exists p' skipped rest, consume_until ts fuel d p set = Val p' /\ ahead (p_input p) = skipped ++ rest /\
      Forall (fun t => t_type t <> EOF_TYPE /\ contains set (t_type t) = false) skipped /\
      (exists t r, rest = t :: r /\ wanted set t) /\
      flat (map (fun t => Took t (recovering d)) skipped) p p' /\ Inv (p_input p') /\ ahead (p_input p') = rest /\ p_notices p' = p_notices p /\
      (skipped = [] -> s_index ts (p_input p') = s_index ts (p_input p)) /\ (skipped <> [] -> s_index ts (p_input p) < s_index ts (p_input p')).
  Proof.
    intros d set p Hn HC HI. destruct (ahead_cons _ HI) as (t & l & HA). unfold consume_until.
    destruct (la1 p t l HI HA) as (q & E & L). rewrite E. cbn [obindo]. pose proof (looked_flat _ _ L) as F. destruct L as (L1 & L2 & L3 & L4).
    destruct (consume_loop_skips (t :: l) fuel (recovering d) set q) with (t := t) (r := l) as (p' & sk & rest & B1 & B2 & B3 & B4 & B5 & B6 & B7 & B8 & B9 & B10); auto.
    { congruence. } { eapply flat_has; eauto. } { congruence. }
    exists p', sk, rest. split; auto. split; [congruence|]. split; auto. split; auto.
    split; [change (flat ([] ++ map (fun t => Took t (recovering d)) sk) p p'); eapply flat_trans; eauto|]. split; auto. split; auto.
    split; [rewrite B8, L1; auto|]. split; [intros Q; rewrite B9; auto|]. rewrite <- L4. auto.
  Qed.

  (** ** Progress *)
  Lemma consume_forward : forall rec p p', Inv (p_input p) -> consume ts rec p = Val p' ->
    Inv (p_input p') /\ s_index ts (p_input p) <= s_index ts (p_input p') /\
    (forall t u l, ahead (p_input p) = t :: u :: l -> s_index ts (p_input p) < s_index ts (p_input p')).
  Proof.
    intros rec p p' HI H. destruct (ahead_cons _ HI) as (t & l & HA). unfold consume in H. rewrite (cur_ahead _ _ _ HI HA) in H. cbn [obindo] in H.
    assert (exists q, p_input p' = p_input q /\ (if t_type t =? EOF_TYPE then Val p else obindo (s_consume ts (p_input p)) (fun s => Val (with_input p s))) = Val q) as (q & Eq & Hq).
    { step H. exists a0. split; auto. destruct (_ || _); [step H; inversion H; subst; destruct rec; auto|inversion H; auto]. }
    rewrite Eq. clear H Eq. destruct l as [|u l].
    - rewrite (ahead_last _ _ HI HA) in Hq. change (EOF_TYPE =? EOF_TYPE) with true in Hq. inversion Hq; subst. split; auto. split; [lia|]. intros. congruence.
    - pose proof (ahead_more _ _ _ _ HI HA) as Q. destruct (Z.eqb_spec (t_type t) EOF_TYPE) as [Q'|_]; [contradiction|].
      destruct (in_consume _ _ _ Hin _ _ _ _ HI HA) as (s' & Es & Is & As & Xs). rewrite Es in Hq. inversion Hq; subst. cbn [p_input with_input]. split; auto. split; [lia|auto].
  Qed.
  Lemma consume_loop_forward : forall n rec set p ty p', Inv (p_input p) -> consume_loop ts n rec set p ty = Val p' ->
    Inv (p_input p') /\ s_index ts (p_input p) <= s_index ts (p_input p').
  Proof.
    induction n as [|n IH]; intros rec set p ty p' HI H; cbn [consume_loop] in H; destruct (_ && _); try discriminate;
      try (inversion H; subst; split; [auto|lia]).
    step H. destruct (consume_forward _ _ _ HI E) as (I1 & X1 & _).
    destruct (la ts a0 1) as [[q ty']| |] eqn:EL; cbn [obindo] in H; try discriminate.
    destruct (la_looked _ _ _ _ I1 EL) as (_ & I2 & _ & X2). destruct (IH _ _ _ _ _ I2 H). split; auto. lia.
  Qed.
  Lemma consume_until_forward : forall d set p p', Inv (p_input p) -> consume_until ts fuel d p set = Val p' ->
    Inv (p_input p') /\ s_index ts (p_input p) <= s_index ts (p_input p').
  Proof.
    intros d set p p' HI H. unfold consume_until in H. destruct (la ts p 1) as [[q ty]| |] eqn:EL; cbn [obindo] in H; try discriminate.
    destruct (la_looked _ _ _ _ HI EL) as (_ & I2 & _ & X2). destruct (consume_loop_forward _ _ _ _ _ _ I2 H). split; auto. lia.
  Qed.

  Definition repeated (d : dstrategy) (p : parser S) : bool :=
    (last_index d =? s_index ts (p_input p)) && match last_states d with Some x => contains x (p_state p) | None => false end.
  Lemma recover_spec : forall d p d1 p1, Inv (p_input p) -> d_recover ts a fuel d p = Val (d1, p1) ->
    s_index ts (p_input p) <= s_index ts (p_input p1) /\
    (forall t u l, ahead (p_input p) = t :: u :: l -> repeated d p = true -> s_index ts (p_input p) < s_index ts (p_input p1)) /\
    last_states d1 = Some (add_one (match last_states d with Some x => x | None => is_new end) (p_state p)) /\
    (repeated d p = false -> last_index d1 = s_index ts (p_input p)).
  Proof.
    intros d p d1 p1 HI H. unfold d_recover in H. fold (repeated d p) in H.
    assert (exists q, (if repeated d p then consume ts (recovering d) p else Val p) = Val q) as [q Eq] by (step H; eauto).
    rewrite Eq in H. cbn [obindo] in H. step H. step H. inversion H; subst. clear H.
    assert (Q : Inv (p_input q) /\ s_index ts (p_input p) <= s_index ts (p_input q) /\ p_state q = p_state p /\
      (forall t u l, ahead (p_input p) = t :: u :: l -> repeated d p = true -> s_index ts (p_input p) < s_index ts (p_input q)) /\
      (repeated d p = false -> q = p)).
    { destruct (repeated d p).
      - destruct (consume_forward _ _ _ HI Eq) as (A & B & C). destruct (consume_flat ts no_inv no_past Hist _ _ _ Eq) as (t & _ & F).
        split; auto. split; auto. split; [apply (fl_state _ _ _ _ _ F)|]. split; [eauto|discriminate].
      - inversion Eq; subst. split; auto. split; [lia|]. repeat split; auto; discriminate. }
    destruct Q as (Q1 & Q2 & Q3 & Q4 & Q5). destruct (consume_until_forward _ _ _ _ Q1 E0) as [Q6 Q7]. cbn [last_states last_index] in *.
    split; [lia|]. split; [intros; specialize (Q4 _ _ _ H H0); lia|]. split; [now rewrite Q3|]. intros Hr. now rewrite (Q5 Hr).
  Qed.

  Lemma report_token_keeps : forall msg d p d1 p1, report_token ts a fuel msg d p = Val (d1, p1) ->
    last_index d1 = last_index d /\ last_states d1 = last_states d /\ p_input p1 = p_input p.
  Proof.
    intros msg d p d1 p1 H. unfold report_token in H. destruct (recovering d); [inversion H; subst; auto|]. step H. step H. step H. inversion H; subst.
    unfold notify_error_listeners in E1. step E1. inversion E1; subst. auto.
  Qed.
  Lemma deletion_keeps : forall d p d1 p1 t, Inv (p_input p) -> single_token_deletion ts a names fuel d p = Val (d1, p1, t) ->
    match t with
    | None => d1 = d /\ looked p p1
    | Some _ => forall t u l, ahead (p_input p) = t :: u :: l -> s_index ts (p_input p) < s_index ts (p_input p1)
    end.
  Proof.
    intros d p d1 p1 t HI H. unfold single_token_deletion in H. destruct (la ts p 2) as [[q nx]| |] eqn:EL; cbn [obindo] in H; try discriminate.
    pose proof (la_looked _ _ _ _ HI EL) as L. step H. destruct (contains a0 nx).
    - destruct (report_unwanted_token ts a names fuel d q) as [[d2 q2]| |] eqn:ER; cbn [obindo] in H; try discriminate.
      destruct (report_token_keeps _ _ _ _ _ ER) as (_ & _ & RI). step H. step H. inversion H; subst. intros t0 u l HA.
      destruct L as (_ & L2 & L3 & L4). assert (I2 : Inv (p_input q2)) by congruence. destruct (consume_forward _ _ _ I2 E0) as (_ & _ & C).
      specialize (C t0 u l). rewrite RI in C. rewrite L3, L4 in C. auto.
    - inversion H; subst. auto.
  Qed.
  Lemma insertion_keeps : forall d p d1 p1 b, Inv (p_input p) -> single_token_insertion ts a names fuel d p = Val (d1, p1, b) ->
    b = false -> d1 = d /\ looked p p1.
  Proof.
    intros d p d1 p1 b HI H Hb. subst b. unfold single_token_insertion in H. destruct (la ts p 1) as [[q nx]| |] eqn:EL; cbn [obindo] in H; try discriminate.
    pose proof (la_looked _ _ _ _ HI EL) as L. step H. step H. step H. step H. step H. step H. destruct (contains a5 nx).
    - destruct (report_missing_token ts a names fuel d q) as [[d2 q2]| |]; cbn [obindo] in H; discriminate.
    - inversion H; subst. auto.
  Qed.
  Lemma insertion_same : forall d p d1 p1, single_token_insertion ts a names fuel d p = Val (d1, p1, false) -> d1 = d.
  Proof.
    intros d p d1 p1 H. unfold single_token_insertion in H. destruct (la ts p 1) as [[q nx]| |] eqn:EL; cbn [obindo] in H; try discriminate.
    step H. step H. step H. step H. step H. step H. destruct (contains a5 nx).
    - destruct (report_missing_token ts a names fuel d q) as [[d2 q2]| |]; cbn [obindo] in H; discriminate.
    - inversion H; subst. auto.
  Qed.
  Lemma deletion_same : forall d p d1 p1, single_token_deletion ts a names fuel d p = Val (d1, p1, None) -> d1 = d.
  Proof.
    intros d p d1 p1 H. unfold single_token_deletion in H. destruct (la ts p 2) as [[q nx]| |] eqn:EL; cbn [obindo] in H; try discriminate.
    step H. destruct (contains a0 nx).
    - destruct (report_unwanted_token ts a names fuel d q) as [[d2 q2]| |] eqn:ER; cbn [obindo] in H; try discriminate. step H. step H. discriminate.
    - inversion H; subst. auto.
  Qed.
  Lemma inline_error_same : forall d p d1 p1 e, d_recover_inline ts a names fuel d p = Val (d1, p1, inr e) -> d1 = d.
  Proof.
    intros d p d1 p1 e H. unfold d_recover_inline in H.
    destruct (single_token_deletion ts a names fuel d p) as [[[d2 q] o]| |] eqn:E1; cbn [obindo] in H; try discriminate.
    destruct o; [step H; discriminate|]. apply deletion_same in E1 as ->.
    destruct (single_token_insertion ts a names fuel d q) as [[[d3 q2] b]| |] eqn:E2; cbn [obindo] in H; try discriminate.
    destruct b; step H; [discriminate|]. inversion H; subst. eapply insertion_same; eauto.
  Qed.
  Lemma sync_keeps : forall d p d1 p1 r i, at_token ts Inv ahead i p -> d_sync ts a names fuel d p = Val (d1, p1, r) -> s_index ts (p_input p1) = i ->
    last_index d1 = last_index d /\ last_states d1 = last_states d.
  Proof.
    intros d p d1 p1 r i (HI & Hx & t & u & l & HA) H H1. unfold d_sync in H. destruct (recovering d); [inversion H; subst; auto|].
    destruct (la ts p 1) as [[q nx]| |] eqn:EL; cbn [obindo] in H; try discriminate.
    pose proof (la_looked _ _ _ _ HI EL) as (_ & L2 & L3 & L4). step H. step H. destruct (contains a1 nx); [inversion H; subst; auto|].
    destruct (contains a1 _). { destruct (nt_ctx d); [inversion H; subst; auto|]. step H. inversion H; subst; auto. }
    destruct (sync_case _); try discriminate.
    - destruct (single_token_deletion ts a names fuel d q) as [[[d2 q2] o]| |] eqn:E2; cbn [obindo] in H; try discriminate.
      pose proof (deletion_keeps _ _ _ _ _ L2 E2) as D. destruct o.
      + inversion H; subst. specialize (D _ _ _ (eq_trans L3 HA)). lia.
      + step H. inversion H; subst. destruct D as [-> _]. auto.
    - destruct (report_unwanted_token ts a names fuel d q) as [[d2 q2]| |] eqn:E2; cbn [obindo] in H; try discriminate.
      destruct (report_token_keeps _ _ _ _ _ E2) as (R1 & R2 & _). step H. step H. step H. inversion H; subst. auto.
  Qed.
  Lemma report_error_keeps : forall d p e d1 p1, d_report_error ts a names fuel d p e = Val (d1, p1) ->
    last_index d1 = last_index d /\ last_states d1 = last_states d.
  Proof.
    intros d p e d1 p1 H. unfold d_report_error in H. destruct (recovering d); [inversion H; subst; auto|]. step H. step H. inversion H; subst. auto.
  Qed.

  Lemma recorded_contains : forall d L x, recorded d L ->
    (match last_states d with Some s => contains s x | None => false end = true <-> In x L).
  Proof.
    intros d L x H. unfold recorded in H. destruct (last_states d); subst; [apply C01_single_insertions_exact|].
    split; [discriminate|contradiction].
  Qed.
  Lemma recorded_next : forall d d1 L x, recorded d L ->
    last_states d1 = Some (add_one (match last_states d with Some s => s | None => is_new end) x) -> recorded d1 (L ++ [x]).
  Proof.
    intros d d1 L x H E. unfold recorded in *. rewrite E, fold_left_app. cbn [fold_left]. destruct (last_states d); subst; auto.
  Qed.

  Lemma stuck_distinct : forall i d l d', stuck ts a names fuel Inv ahead i d l d' ->
    (forall L, recorded d L -> last_index d = i -> NoDup l /\ (forall x, In x l -> ~ In x L)) /\
    (reachable_strategy d -> NoDup l).
  Proof.
    induction 1 as [d|d p d1 p1 l d' A X E HS [IH IHs]|d p d1 p1 r l d' A X E HS [IH IHs]|d p e d1 p1 l d' E HS [IH IHs]|d p d1 p1 e l d' E HS [IH IHs]].
    - split; [|constructor]. split; [constructor|contradiction].
    - destruct A as (HI & Hx & t & u & r & HA). destruct (recover_spec _ _ _ _ HI E) as (R1 & R2 & R3 & R4).
      assert (NR : repeated d p = false). { destruct (repeated d p); auto. specialize (R2 _ _ _ HA eq_refl). lia. }
      specialize (R4 NR). split.
      + intros L HL Hi. pose proof (recorded_next _ _ _ _ HL R3) as HL1. destruct (IH _ HL1) as [N1 N2]; [congruence|].
        assert (NI : ~ In (p_state p) L).
        { intros HIn. apply (recorded_contains d L) in HIn; auto. unfold repeated in NR. rewrite Hi, Hx, Z.eqb_refl in NR. cbn [andb] in NR. congruence. }
        split.
        * constructor; auto. intros HIn. apply (N2 _ HIn). apply in_or_app. right. left. auto.
        * intros x [<-|HIn]; auto. intros HIL. apply (N2 _ HIn). apply in_or_app. auto.
      + intros [L HL]. pose proof (recorded_next _ _ _ _ HL R3) as HL1. destruct (IH _ HL1) as [N1 N2]; [congruence|].
        constructor; auto. intros HIn. apply (N2 _ HIn). apply in_or_app. right. left. auto.
    - destruct (sync_keeps _ _ _ _ _ _ A E X) as [K1 K2]. split.
      + intros L HL Hi. apply IH; [unfold recorded in *; now rewrite K2|congruence].
      + intros [L HL]. apply IHs. exists L. unfold recorded in *. now rewrite K2.
    - destruct (report_error_keeps _ _ _ _ _ E) as [K1 K2]. split.
      + intros L HL Hi. apply IH; [unfold recorded in *; now rewrite K2|congruence].
      + intros [L HL]. apply IHs. exists L. unfold recorded in *. now rewrite K2.
    - apply inline_error_same in E as ->. auto.
  Qed.

  (** ** Reports *)
  Definition level (g : strategy) : nat := if in_error_recovery_mode g then 0 else 1.
  Definition counted (g : strategy) (p : parser S) (g' : strategy) (p' : parser S) : Prop :=
    exists new, p_notices p' = p_notices p ++ new /\
      (length (filter by_report_error new) + level g' <= level g)%nat /\
      (in_error_recovery_mode g = true -> new = []).
  Lemma counted_refl : forall g (p q : parser S), p_notices q = p_notices p -> counted g p g q.
  Proof. intros g p q E. exists []. rewrite app_nil_r. split; auto. Qed.
  Lemma counted_trans : forall g p g1 p1 g' p', counted g p g1 p1 -> counted g1 p1 g' p' -> counted g p g' p'.
  Proof.
    intros g p g1 p1 g' p' (n1 & N1 & L1 & Q1) (n2 & N2 & L2 & Q2). exists (n1 ++ n2). rewrite N2, N1, app_assoc. split; auto.
    rewrite filter_app, app_length. split; [lia|]. intros Hm. rewrite (Q1 Hm). cbn. apply Q2. unfold level in *. rewrite Hm in L1.
    destruct (in_error_recovery_mode g1); auto. lia.
  Qed.
  Lemma counted_same : forall g g' (p q : parser S), in_error_recovery_mode g' = in_error_recovery_mode g -> p_notices q = p_notices p -> counted g p g' q.
  Proof. intros g g' p q E N. exists []. rewrite app_nil_r. split; auto. unfold level. rewrite E. auto. Qed.

  Lemma d_report_counted : forall w d p e d1 p1, w = Default \/ w = Bail -> d_report_error ts a names fuel d p e = Val (d1, p1) -> counted (w d) p (w d1) p1.
  Proof.
    intros w d p e d1 p1 Hw H. unfold d_report_error in H. destruct (recovering d) eqn:ER; [inversion H; subst; now apply counted_refl|].
    step H. step H. inversion H; subst. unfold notify_error_listeners in E0. step E0. inversion E0; subst. cbn [p_notices with_notice].
    eexists. split; [reflexivity|]. destruct Hw; subst w; unfold level; cbn; rewrite ER; split; auto; discriminate.
  Qed.
  Lemma la_notices : forall p k q t, la ts p k = Val (q, t) -> p_notices q = p_notices p.
  Proof.
    intros p k q t H. unfold la, lt in H. destruct (s_lt ts (p_input p) k) as [[s o]| |]; cbn [obindo] in H; try discriminate. inversion H; subst. auto.
  Qed.
  Lemma consume_until_notices : forall d p set q, consume_until ts fuel d p set = Val q -> p_notices q = p_notices p.
  Proof.
    intros d p set q H. unfold consume_until in H. destruct (la ts p 1) as [[p1 ty]| |] eqn:EL; cbn [obindo] in H; try discriminate.
    apply la_notices in EL. rewrite <- EL. clear EL. revert p1 ty H. generalize fuel as n.
    induction n as [|n IH]; intros p1 ty H; cbn [consume_loop] in H; destruct (_ && _); try discriminate; try (inversion H; subst; auto; fail).
    step H. destruct (consume_notices _ _ _ E) as [N _]. destruct (la ts a0 1) as [[p2 ty2]| |] eqn:EL; cbn [obindo] in H; try discriminate.
    apply la_notices in EL. rewrite (IH _ _ H). congruence.
  Qed.
  Lemma d_recover_notices : forall d p d1 p1, d_recover ts a fuel d p = Val (d1, p1) -> p_notices p1 = p_notices p /\ recovering d1 = recovering d.
  Proof.
    intros d p d1 p1 H. unfold d_recover in H. step H. step H. step H. inversion H; subst. apply consume_until_notices in E1. rewrite E1. split; auto.
    destruct (_ && _); [|inversion E; auto]. destruct (consume_notices _ _ _ E). auto.
  Qed.
  Lemma recover_counted : forall g p e g1 p1 r, recover ts a fuel g p e = Val (g1, p1, r) -> counted g p g1 p1.
  Proof.
    intros [d|d] p e g1 p1 r H; cbn [recover] in H.
    - destruct (d_recover ts a fuel d p) as [[d1 q]| |] eqn:E; cbn [obindo] in H; try discriminate. inversion H; subst.
      destruct (d_recover_notices _ _ _ _ E). now apply counted_same.
    - step H. inversion H; subst. now apply counted_refl.
  Qed.
  Lemma report_token_counted : forall msg d p d1 p1, report_token ts a fuel msg d p = Val (d1, p1) ->
    counted (Default d) p (Default d1) p1 /\ exists new, p_notices p1 = p_notices p ++ new /\ filter by_report_error new = [].
  Proof.
    intros msg d p d1 p1 H. unfold report_token in H. destruct (recovering d) eqn:ER.
    - inversion H; subst. split; [now apply counted_refl|]. exists []. now rewrite app_nil_r.
    - step H. step H. step H. inversion H; subst. unfold notify_error_listeners in E1. step E1. inversion E1; subst. cbn [p_notices with_notice]. split.
      + eexists. split; [reflexivity|]. unfold level. cbn. rewrite ER. split; [lia|discriminate].
      + eexists. split; [reflexivity|]. reflexivity.
  Qed.
  Lemma deletion_notices : forall d p d1 p1 t, single_token_deletion ts a names fuel d p = Val (d1, p1, t) -> recovering d = false ->
    exists new, p_notices p1 = p_notices p ++ new /\ filter by_report_error new = [] /\ recovering d1 = false /\ (t = None -> new = []).
  Proof.
    intros d p d1 p1 t H HR. unfold single_token_deletion in H. destruct (la ts p 2) as [[q nx]| |] eqn:EL; cbn [obindo] in H; try discriminate.
    apply la_notices in EL. step H. destruct (contains a0 nx).
    - destruct (report_unwanted_token ts a names fuel d q) as [[d2 q2]| |] eqn:ER; cbn [obindo] in H; try discriminate.
      destruct (report_token_counted _ _ _ _ _ ER) as (_ & new & N & F). step H. step H. inversion H; subst. destruct (consume_notices _ _ _ E0) as [N0 _].
      exists new. split; [congruence|]. repeat split; auto. discriminate.
    - inversion H; subst. exists []. rewrite app_nil_r. auto.
  Qed.
  Lemma sync_counted : forall g p g1 p1 r, sync ts a names fuel g p = Val (g1, p1, r) -> counted g p g1 p1.
  Proof.
    intros [d|d] p g1 p1 r H; cbn [sync] in H; [|inversion H; subst; now apply counted_refl].
    destruct (d_sync ts a names fuel d p) as [[[d1 q] r1]| |] eqn:E; cbn [obindo] in H; try discriminate. inversion H; subst. clear H.
    unfold d_sync in E. destruct (recovering d) eqn:ER; [inversion E; subst; now apply counted_refl|].
    destruct (la ts p 1) as [[q nx]| |] eqn:EL; cbn [obindo] in E; try discriminate. apply la_notices in EL.
    step E. step E. destruct (contains a1 nx); [inversion E; subst; apply counted_same; auto|].
    destruct (contains a1 _). { destruct (nt_ctx d); [inversion E; subst; apply counted_same; auto|]. step E. inversion E; subst. apply counted_same; auto. }
    destruct (sync_case _); try discriminate.
    - destruct (single_token_deletion ts a names fuel d q) as [[[d2 q2] o]| |] eqn:E2; cbn [obindo] in E; try discriminate.
      destruct (deletion_notices _ _ _ _ _ E2 ER) as (new & N & F & R & NN).
      assert (K : counted (Default d) p (Default d2) q2).
      { exists new. rewrite N, EL. split; auto. unfold level. cbn. rewrite ER, R, F. cbn. split; [lia|discriminate]. }
      destruct o; [|step E]; inversion E; subst; auto.
    - destruct (report_unwanted_token ts a names fuel d q) as [[d2 q2]| |] eqn:E2; cbn [obindo] in E; try discriminate.
      destruct (report_token_counted _ _ _ _ _ E2) as [K _]. step E. step E. step E. inversion E; subst. apply consume_until_notices in E5.
      eapply counted_trans; [apply counted_refl; exact EL|]. eapply counted_trans; [exact K|]. now apply counted_refl.
  Qed.
  Lemma inline_error_notices : forall d p d1 p1 e, d_recover_inline ts a names fuel d p = Val (d1, p1, inr e) -> p_notices p1 = p_notices p.
  Proof.
    intros d p d1 p1 e H. unfold d_recover_inline in H.
    destruct (single_token_deletion ts a names fuel d p) as [[[d2 q] o]| |] eqn:E1; cbn [obindo] in H; try discriminate.
    destruct o; [step H; discriminate|].
    assert (N1 : p_notices q = p_notices p).
    { unfold single_token_deletion in E1. destruct (la ts p 2) as [[q0 nx]| |] eqn:EL; cbn [obindo] in E1; try discriminate. apply la_notices in EL.
      step E1. destruct (contains a0 nx); [destruct (report_unwanted_token ts a names fuel d q0) as [[? ?]| |]; cbn [obindo] in E1; try discriminate; step E1; step E1; discriminate|].
      inversion E1; subst. auto. }
    destruct (single_token_insertion ts a names fuel d2 q) as [[[d3 q2] b]| |] eqn:E2; cbn [obindo] in H; try discriminate.
    destruct b; step H; [discriminate|]. inversion H; subst.
    unfold single_token_insertion in E2. destruct (la ts q 1) as [[q0 nx]| |] eqn:EL; cbn [obindo] in E2; try discriminate. apply la_notices in EL.
    step E2. step E2. step E2. step E2. step E2. step E2. destruct (contains _ nx); [destruct (report_missing_token ts a names fuel d2 q0) as [[? ?]| |]; cbn [obindo] in E2; discriminate|].
    inversion E2; subst. congruence.
  Qed.
  Lemma recover_inline_counted : forall g p g1 p1 e, recover_inline ts a names fuel g p = Val (g1, p1, inr e) -> counted g p g1 p1.
  Proof.
    intros [d|d] p g1 p1 e H; cbn [recover_inline] in H.
    - destruct (d_recover_inline ts a names fuel d p) as [[[d1 q] r1]| |] eqn:E; cbn [obindo] in H; try discriminate. inversion H; subst.
      rewrite (inline_error_same _ _ _ _ _ E). apply counted_refl. eapply inline_error_notices; eauto.
    - step H. step H. inversion H; subst. now apply counted_refl.
  Qed.
  Lemma inline_missing_counted : forall i g p g1 p1 m, at_token ts Inv ahead i p -> recover_inline ts a names fuel g p = Val (g1, p1, inl m) ->
    s_index ts (p_input p1) = i -> counted g p g1 p1.
  Proof.
    intros i [d|d] p g1 p1 m (HI & HX & t & u & l & HA) H H1; cbn [recover_inline] in H; [|step H; step H; discriminate].
    destruct (d_recover_inline ts a names fuel d p) as [[[d1 q] r1]| |] eqn:E; cbn [obindo] in H; try discriminate. inversion H; subst. clear H.
    unfold d_recover_inline in E. destruct (single_token_deletion ts a names fuel d p) as [[[d2 q] o]| |] eqn:E1; cbn [obindo] in E; try discriminate.
    pose proof (deletion_keeps _ _ _ _ _ HI E1) as K. destruct o.
    - specialize (K _ _ _ HA). step E. inversion E; subst.
      assert (HI2 : Inv (p_input q)).
      { unfold single_token_deletion in E1. destruct (la ts p 2) as [[q0 nx]| |] eqn:EL; cbn [obindo] in E1; try discriminate.
        pose proof (la_looked _ _ _ _ HI EL) as (_ & L2 & _). step E1. destruct (contains a0 nx); [|discriminate].
        destruct (report_unwanted_token ts a names fuel d q0) as [[d3 q3]| |] eqn:E3; cbn [obindo] in E1; try discriminate.
        destruct (report_token_keeps _ _ _ _ _ E3) as (_ & _ & P3). step E1. step E1. inversion E1; subst.
        eapply consume_forward; [|exact E4]. congruence. }
      destruct (consume_forward _ _ _ HI2 E0) as (_ & X & _). lia.
    - destruct K as [-> L]. destruct (single_token_insertion ts a names fuel d q) as [[[d3 q2] b]| |] eqn:E2; cbn [obindo] in E; try discriminate.
      destruct b; step E; [|discriminate]. inversion E; subst.
      unfold single_token_insertion in E2. destruct (la ts q 1) as [[q0 nx]| |] eqn:EL; cbn [obindo] in E2; try discriminate. apply la_notices in EL.
      step E2. step E2. step E2. step E2. step E2. step E2. destruct (contains _ nx); [|discriminate].
      destruct (report_missing_token ts a names fuel d q0) as [[d4 q4]| |] eqn:E9; cbn [obindo] in E2; try discriminate. inversion E2; subst.
      destruct L as (L1 & _). eapply counted_trans; [|exact (proj1 (report_token_counted _ _ _ _ _ E9))]. apply counted_refl. rewrite EL, L1. reflexivity.
  Qed.
  Lemma add_missing_same : forall (p : parser S) t (q : parser S), add_missing p t = Val q -> p_notices q = p_notices p /\ p_input q = p_input p.
  Proof. intros p t q H. unfold add_missing in H. destruct (_ && _); [step H|]; inversion H; subst; auto. Qed.

  Lemma unmatched_counted : forall g p g' p', unmatched ts a names fuel Inv ahead g p g' p' -> counted g p g' p'.
  Proof.
    induction 1; [now apply counted_refl|..]; (eapply counted_trans; [|eassumption]).
    - now apply counted_refl.
    - destruct g; cbn [report_error] in H; destruct (d_report_error ts a names fuel d p e) as [[d1 q]| |] eqn:E; cbn [obindo] in H; try discriminate; inversion H; subst; eapply d_report_counted; eauto.
    - eapply recover_counted; eauto.
    - eapply sync_counted; eauto.
    - unfold match_token in H. step H. destruct (_ =? ty); [step H; discriminate|].
      destruct (recover_inline ts a names fuel g p) as [[[g2 q] r1]| |] eqn:E1; cbn [obindo] in H; try discriminate.
      destruct r1; [step H; discriminate|]. inversion H; subst. eapply recover_inline_counted; eauto.
    - unfold match_wildcard in H. step H. destruct (_ >? 0); [step H; discriminate|].
      destruct (recover_inline ts a names fuel g p) as [[[g2 q] r1]| |] eqn:E1; cbn [obindo] in H; try discriminate.
      destruct r1; [step H; discriminate|]. inversion H; subst. eapply recover_inline_counted; eauto.
    - unfold match_set in H. destruct (la ts p 1) as [[q ty]| |] eqn:EL; cbn [obindo] in H; try discriminate. apply la_notices in EL.
      destruct (inset ty); [destruct (la ts q 1) as [[? ?]| |]; cbn [obindo] in H; try discriminate; step H; discriminate|].
      destruct (recover_inline ts a names fuel g q) as [[[g2 q2] r1]| |] eqn:E1; cbn [obindo] in H; try discriminate.
      destruct r1; inversion H; subst. eapply counted_trans; [apply counted_refl; exact EL|]. eapply recover_inline_counted; eauto.
    - unfold match_token in H0. step H0. destruct (_ =? ty).
      + exfalso. step H0. inversion H0; subst. destruct H as (HI & HX & t & u & l & HA).
        assert (HH : Inv (p_input (if ty =? TOKEN_EOF then with_eof p else p)) /\ p_input (if ty =? TOKEN_EOF then with_eof p else p) = p_input p) by (destruct (_ =? _); auto).
        destruct HH as [HI' HE']. destruct (consume_forward _ _ _ HI' E0) as (_ & _ & X). rewrite HE' in X. specialize (X _ _ _ HA). lia.
      + destruct (recover_inline ts a names fuel g p) as [[[g2 q] r1]| |] eqn:E1; cbn [obindo] in H0; try discriminate.
        destruct r1; [|discriminate]. step H0. inversion H0; subst. destruct (add_missing_same _ _ _ E0) as [N X].
        eapply counted_trans; [eapply inline_missing_counted; eauto; congruence|]. now apply counted_refl.
    - unfold match_wildcard in H0. step H0. destruct (_ >? 0).
      + exfalso. step H0. inversion H0; subst. destruct H as (HI & HX & t & u & l & HA).
        destruct (consume_forward _ _ _ HI E0) as (_ & _ & X). specialize (X _ _ _ HA). lia.
      + destruct (recover_inline ts a names fuel g p) as [[[g2 q] r1]| |] eqn:E1; cbn [obindo] in H0; try discriminate.
        destruct r1; [|discriminate]. step H0. inversion H0; subst. destruct (add_missing_same _ _ _ E0) as [N X].
        eapply counted_trans; [eapply inline_missing_counted; eauto; congruence|]. now apply counted_refl.
    - unfold match_set in H0. destruct (la ts p 1) as [[q ty]| |] eqn:EL; cbn [obindo] in H0; try discriminate. pose proof (la_notices _ _ _ _ EL) as NL.
      destruct H as (HI & HX & t & u & l & HA). destruct (la_looked _ _ _ _ HI EL) as (_ & L2 & L3 & L4).
      destruct (inset ty).
      + exfalso. destruct (la ts q 1) as [[q2 ty2]| |] eqn:EL2; cbn [obindo] in H0; try discriminate. step H0. inversion H0; subst.
        destruct (la_looked _ _ _ _ L2 EL2) as (_ & M2 & M3 & M4).
        assert (HH : Inv (p_input (if ty2 =? TOKEN_EOF then with_eof q2 else q2)) /\ p_input (if ty2 =? TOKEN_EOF then with_eof q2 else q2) = p_input q2) by (destruct (_ =? _); auto).
        destruct HH as [HI' HE']. destruct (consume_forward _ _ _ HI' E) as (_ & _ & X). rewrite HE', M3, L3 in X. specialize (X _ _ _ HA). lia.
      + destruct (recover_inline ts a names fuel g q) as [[[g2 q2] r1]| |] eqn:E1; cbn [obindo] in H0; try discriminate.
        destruct r1; [|discriminate]. inversion H0; subst. eapply counted_trans; [apply counted_refl; exact NL|].
        eapply inline_missing_counted; [|exact E1|]; [|eauto]. split; auto. split; [congruence|]. rewrite L3. eauto.
  Qed.
  Lemma matched_mode : forall d p ty g1 p1 t i, at_token ts Inv ahead i p -> match_token ts a names fuel (Default d) p ty = Val (g1, p1, inl t) ->
    i < s_index ts (p_input p1) -> in_error_recovery_mode g1 = false.
  Proof.
    intros d p ty g1 p1 t i HA H HL. unfold match_token in H. step H. destruct (_ =? ty); [step H; inversion H; subst; auto|].
    destruct (recover_inline ts a names fuel (Default d) p) as [[[g2 q] r1]| |] eqn:E1; cbn [obindo] in H; try discriminate.
    destruct r1; [|discriminate]. step H. inversion H; subst. destruct (add_missing_same _ _ _ E0) as [_ X]. rewrite X in HL.
    clear H E0 X E. cbn [recover_inline] in E1. destruct (d_recover_inline ts a names fuel d p) as [[[d1 q1] r1]| |] eqn:E; cbn [obindo] in E1; try discriminate.
    inversion E1; subst. clear E1. destruct HA as (HI & HX & t0 & u & l & HA).
    unfold d_recover_inline in E. destruct (single_token_deletion ts a names fuel d p) as [[[d2 q2] o]| |] eqn:E1; cbn [obindo] in E; try discriminate.
    pose proof (deletion_keeps _ _ _ _ _ HI E1) as K. destruct o.
    - step E. inversion E; subst. cbn. unfold single_token_deletion in E1. destruct (la ts p 2) as [[q0 nx]| |] eqn:EL; cbn [obindo] in E1; try discriminate.
      step E1. destruct (contains _ nx); [|discriminate].
      destruct (report_unwanted_token ts a names fuel d q0) as [[d3 q3]| |] eqn:E3; cbn [obindo] in E1; try discriminate.
      step E1. step E1. inversion E1; subst. reflexivity.
    - destruct K as [-> L]. destruct (single_token_insertion ts a names fuel d q2) as [[[d3 q3] b]| |] eqn:E2; cbn [obindo] in E; try discriminate.
      destruct b; step E; [|discriminate]. inversion E; subst. exfalso.
      unfold single_token_insertion in E2. destruct L as (_ & L2 & L3 & L4). destruct (la ts q2 1) as [[q0 nx]| |] eqn:EL; cbn [obindo] in E2; try discriminate.
      destruct (la_looked _ _ _ _ L2 EL) as (_ & M2 & M3 & M4).
      step E2. step E2. step E2. step E2. step E2. step E2. destruct (contains _ nx); [|discriminate].
      destruct (report_missing_token ts a names fuel d q0) as [[d4 q4]| |] eqn:E9; cbn [obindo] in E2; try discriminate. inversion E2; subst.
      destruct (report_token_keeps _ _ _ _ _ E9) as (_ & _ & P3). rewrite P3 in HL. lia.
  Qed.

  (** ** Inline recovery *)
  Lemma expected_look : forall (p : parser S) s, get_expected_tokens a fuel (with_input p s) = get_expected_tokens a fuel p.
  Proof. reflexivity. Qed.
  Lemma report_token_works : forall msg d p E t l, Inv (p_input p) -> ahead (p_input p) = t :: l -> get_expected_tokens a fuel p = Val E ->
    exists d1 p1, report_token ts a fuel msg d p = Val (d1, p1) /\ recovering d1 = true /\ p_input p1 = p_input p /\ flat [] p p1 /\
      p_notices p1 = p_notices p ++ (if recovering d then [] else [Notice t (msg E t) None]) /\ (recovering d = true -> d1 = d /\ p1 = p).
  Proof.
    intros msg d p E t l HI HA HE. unfold report_token. destruct (recovering d) eqn:ER.
    - exists d, p. split; auto. split; auto. split; auto. split; [apply flat_refl|]. rewrite app_nil_r. auto.
    - rewrite HE. cbn [obindo]. rewrite (cur_ahead _ _ _ HI HA). cbn [obindo]. unfold notify_error_listeners.
      rewrite (proj2 (in_get _ _ _ Hin _ _ _ HI HA)). cbn [obindo]. eexists _, _. split; [reflexivity|]. split; auto. split; auto. split; [apply notice_flat|].
      split; auto. discriminate.
  Qed.
  Lemma inline_delete : forall d p E t n l, has_ctx p -> Inv (p_input p) -> ahead (p_input p) = t :: n :: l -> get_expected_tokens a fuel p = Val E ->
    contains E (t_type n) = true ->
    exists d' p', d_recover_inline ts a names fuel d p = Val (d', p', inl n) /\ recovering d' = false /\ Inv (p_input p') /\
      ahead (p_input p') = (if t_type n =? EOF_TYPE then n :: l else l) /\
      grew (if_shown p [KErr t; KTerm n]) p p' /\
      p_notices p' = p_notices p ++ (if recovering d then [] else [Notice t (unwanted_message names E t) None]).
  Proof.
    intros d p E t n l HC HI HA HE HN. unfold d_recover_inline, single_token_deletion.
    destruct (la2 p t (n :: l) HI HA) as (q & EL & L). cbn [hd] in EL. rewrite EL. cbn [obindo]. pose proof (looked_flat _ _ L) as F0.
    destruct L as (L1 & L2 & L3 & L4).
    assert (HE' : get_expected_tokens a fuel q = Val E) by (rewrite L1; exact HE). rewrite HE'. cbn [obindo]. rewrite HN.
    assert (HA' : ahead (p_input q) = t :: n :: l) by congruence.
    destruct (report_token_works (unwanted_message names) d q E t (n :: l) L2 HA' HE') as (d1 & p1 & ER & R1 & R2 & F1 & R3 & _).
    unfold report_unwanted_token. rewrite ER. cbn [obindo]. rewrite R1.
    destruct (consume_moves true p1 t n l) as (p2 & E2 & F2 & I2 & A2 & _ & N2); [eapply flat_has; [exact F1|]; eapply flat_has; eauto|congruence|congruence|].
    rewrite E2. cbn [obindo]. rewrite (cur_ahead _ _ _ I2 A2). cbn [obindo].
    assert (HC2 : has_ctx p2) by (eapply flat_has; [exact F2|]; eapply flat_has; [exact F1|]; eapply flat_has; eauto).
    assert (exists p3, consume ts false p2 = Val p3 /\ Inv (p_input p3) /\ ahead (p_input p3) = (if t_type n =? EOF_TYPE then n :: l else l) /\
      (flat [Took n false] p2 p3 \/ flat [Saw n false] p2 p3) /\ p_notices p3 = p_notices p2) as (p3 & E3 & I3 & A3 & F3 & N3).
    { destruct l as [|u l].
      - destruct (consume_at_end false p2 n HC2 I2 A2) as (p3 & E3 & F3 & X3 & N3). exists p3. split; auto. rewrite X3.
        rewrite (ahead_last _ _ I2 A2). change (EOF_TYPE =? EOF_TYPE) with true. auto 10.
      - destruct (consume_moves false p2 n u l HC2 I2 A2) as (p3 & E3 & F3 & I3 & A3 & _ & N3). exists p3. split; auto.
        pose proof (ahead_more _ _ _ _ I2 A2) as Q. destruct (Z.eqb_spec (t_type n) EOF_TYPE); [contradiction|]. auto 10. }
    exists (d_report_match d1), p3. cbn [recovering d_report_match end_error_condition]. rewrite E3. cbn [obindo]. split; auto. split; auto. split; auto. split; auto. split.
    - destruct F3 as [F3|F3]; pose proof (flat_trans _ _ _ _ _ _ _ F0 (flat_trans _ _ _ _ _ _ _ F1 (flat_trans _ _ _ _ _ _ _ F2 F3))) as F; apply flat_grew in F; exact F.
    - rewrite N3, N2, R3, L1. reflexivity.
  Qed.
  Lemma not_deleted : forall d p E t l, Inv (p_input p) -> ahead (p_input p) = t :: l -> get_expected_tokens a fuel p = Val E ->
    contains E (t_type (hd t l)) = false ->
    exists q, single_token_deletion ts a names fuel d p = Val (d, q, None) /\ looked p q.
  Proof.
    intros d p E t l HI HA HE HN. unfold single_token_deletion. destruct (la2 p t l HI HA) as (q & EL & L). rewrite EL. cbn [obindo].
    assert (HE' : get_expected_tokens a fuel q = Val E) by (destruct L as (L1 & _); rewrite L1; exact HE). rewrite HE'. cbn [obindo]. rewrite HN.
    exists q. auto.
  Qed.
  Lemma insertion_works : forall d p F t l, Inv (p_input p) -> ahead (p_input p) = t :: l -> after_missing a fuel p = Val F ->
    exists q, looked p q /\ single_token_insertion ts a names fuel d p =
      if contains F (t_type t) then obindo (report_missing_token ts a names fuel d q) (fun '(d, p) => Val (d, p, true)) else Val (d, q, false).
  Proof.
    intros d p F t l HI HA HF. unfold single_token_insertion. destruct (la1 p t l HI HA) as (q & EL & L). rewrite EL. cbn [obindo].
    exists q. split; auto. destruct L as (L1 & _). unfold after_missing in HF. unfold get_ctx.
    replace (p_ctx q) with (p_ctx p) by (rewrite L1; auto). replace (p_heap q) with (p_heap p) by (rewrite L1; auto). replace (p_state q) with (p_state p) by (rewrite L1; auto).
    step HF. step HF. step HF. step HF. step HF. cbn [obindo]. rewrite E1; cbn [obindo]. rewrite E2; cbn [obindo]. cbn [obindo]. rewrite E3; cbn [obindo]. rewrite HF. reflexivity.
  Qed.
  Lemma inline_insert : forall d p E F t l, has_ctx p -> Inv (p_input p) -> ahead (p_input p) = t :: l -> get_expected_tokens a fuel p = Val E ->
    contains E (t_type (hd t l)) = false -> after_missing a fuel p = Val F -> contains F (t_type t) = true ->
    exists d' p' m, d_recover_inline ts a names fuel d p = Val (d', p', inl m) /\ recovering d' = true /\ Inv (p_input p') /\
      ahead (p_input p') = t :: l /\ s_index ts (p_input p') = s_index ts (p_input p) /\ grew [] p p' /\
      t_index m = -1 /\ t_type m = (match get_min E with Some x => x | None => TOKEN_INVALID_TYPE end) /\
      t_text m = (if t_type m =? EOF_TYPE then missing_eof_text else missing_text (display_name names (t_type m))) /\
      (t_type t <> EOF_TYPE -> t_line m = t_line t /\ t_column m = t_column t) /\
      p_notices p' = p_notices p ++ (if recovering d then [] else [Notice t (missing_message names E t) None]).
  Proof.
    intros d p E F t l HC HI HA HE HN HF HT. unfold d_recover_inline.
    destruct (not_deleted d p E t l HI HA HE HN) as (q & ED & L). rewrite ED. cbn [obindo].
    pose proof (looked_flat _ _ L) as F0. destruct L as (L1 & L2 & L3 & L4). assert (HA' : ahead (p_input q) = t :: l) by congruence.
    assert (HF' : after_missing a fuel q = Val F) by (rewrite L1; exact HF).
    destruct (insertion_works d q F t l L2 HA' HF') as (q2 & M & EI). rewrite EI, HT. clear EI.
    pose proof (looked_flat _ _ M) as F1. destruct M as (M1 & M2 & M3 & M4). assert (HA2 : ahead (p_input q2) = t :: l) by congruence.
    assert (HE2 : get_expected_tokens a fuel q2 = Val E) by (rewrite M1, L1; exact HE).
    destruct (report_token_works (missing_message names) d q2 E t l M2 HA2 HE2) as (d1 & p1 & ER & R1 & R2 & F2 & R3 & _). unfold report_missing_token. rewrite ER. cbn [obindo].
    assert (HE3 : get_expected_tokens a fuel p1 = Val E).
    { unfold get_expected_tokens, get_ctx in *. rewrite (fl_ctx _ _ _ _ _ F2), (fl_state _ _ _ _ _ F2). replace (p_heap p1) with (p_heap q2); auto.
      rewrite (fl_heap _ _ _ _ _ F2). unfold kids_of. destruct (showing q2); cbn [map]; now rewrite grow_nil. }
    unfold get_missing_symbol. rewrite HE3. cbn [obindo]. assert (HA3 : ahead (p_input p1) = t :: l) by congruence. assert (HI3 : Inv (p_input p1)) by congruence.
    rewrite (cur_ahead _ _ _ HI3 HA3). cbn [obindo].
    destruct (in_before _ _ _ Hin _ HI3) as [b Hb].
    assert (exists c, (if t_type t =? EOF_TYPE then s_get ts (p_input p1) (Z.max (s_index ts (p_input p1) - 1) 0) else Val t) = Val c) as [c Hc].
    { destruct (_ =? _); [eauto|eauto]. }
    rewrite Hc. cbn [obindo]. eexists _, _, _. split; [reflexivity|]. split; auto. split; auto. split; auto. split; [congruence|]. split.
    - pose proof (flat_trans _ _ _ _ _ _ _ F0 (flat_trans _ _ _ _ _ _ _ F1 F2)) as FF. apply flat_grew in FF. unfold if_shown in FF. cbn [app map] in FF. destruct (_ || _) in FF; exact FF.
    - split; auto. split; auto. split; [reflexivity|]. split; [|rewrite R3, M1, L1; reflexivity].
      intros NE. cbn [t_line t_column]. apply Z.eqb_neq in NE. rewrite NE in Hc. inversion Hc; subst. auto.
  Qed.
  Lemma inline_fail : forall d p E F t l d' p' r, has_ctx p -> Inv (p_input p) -> ahead (p_input p) = t :: l -> get_expected_tokens a fuel p = Val E ->
    contains E (t_type (hd t l)) = false -> after_missing a fuel p = Val F -> contains F (t_type t) = false ->
    d_recover_inline ts a names fuel d p = Val (d', p', r) ->
    d' = d /\ looked p p' /\ exists b, r = inr (InputMismatchError b) /\ e_token b = t.
  Proof.
    intros d p E F t l d' p' r HC HI HA HE HN HF HT H. unfold d_recover_inline in H.
    destruct (not_deleted d p E t l HI HA HE HN) as (q & ED & L). rewrite ED in H. cbn [obindo] in H.
    destruct L as (L1 & L2 & L3 & L4). assert (HA' : ahead (p_input q) = t :: l) by congruence.
    assert (HF' : after_missing a fuel q = Val F) by (rewrite L1; exact HF).
    destruct (insertion_works d q F t l L2 HA' HF') as (q2 & M & EI). rewrite EI, HT in H. clear EI. cbn [obindo] in H.
    destruct M as (M1 & M2 & M3 & M4). assert (HA2 : ahead (p_input q2) = t :: l) by congruence.
    assert (LK : looked p q2). { repeat split; try congruence. rewrite M1, L1. reflexivity. }
    assert (BE : forall b, base_error_new ts q2 = Val b -> e_token b = t).
    { intros b Hb. unfold base_error_new in Hb. rewrite (cur_ahead _ _ _ M2 HA2) in Hb. cbn [obindo] in Hb. step Hb. inversion Hb; auto. }
    step H. inversion H; subst. split; auto. split; auto. destruct (nt_ctx d').
    - unfold mismatch_with_state in E0. step E0. step E0. inversion E0; subst. eexists. split; [reflexivity|]. cbn. auto.
    - step E0. inversion E0; subst. eexists. split; [reflexivity|]. auto.
  Qed.

  Lemma inline_fail_val : forall d p E F t l st, has_ctx p -> Inv (p_input p) -> ahead (p_input p) = t :: l -> get_expected_tokens a fuel p = Val E ->
    contains E (t_type (hd t l)) = false -> after_missing a fuel p = Val F -> contains F (t_type t) = false ->
    stack_of p = Val st -> nt_ctx d = None -> exists x, d_recover_inline ts a names fuel d p = Val x.
  Proof.
    intros d p E F t l st HC HI HA HE HN HF HT HS HX. unfold d_recover_inline.
    destruct (not_deleted d p E t l HI HA HE HN) as (q & ED & L). rewrite ED. cbn [obindo].
    destruct L as (L1 & L2 & L3 & L4). assert (HA' : ahead (p_input q) = t :: l) by congruence.
    assert (HF' : after_missing a fuel q = Val F) by (rewrite L1; exact HF).
    destruct (insertion_works d q F t l L2 HA' HF') as (q2 & M & EI). rewrite EI, HT. cbn [obindo]. rewrite HX.
    destruct M as (M1 & M2 & M3 & M4). assert (HA2 : ahead (p_input q2) = t :: l) by congruence.
    unfold base_error_new. rewrite (cur_ahead _ _ _ M2 HA2). cbn [obindo].
    assert (stack_of q2 = Val st) as ->. { rewrite M1, L1. exact HS. } cbn [obindo]. eauto.
  Qed.

  (** ** Strategies that occur *)
  Lemma stuck_app : forall i d l d1, stuck ts a names fuel Inv ahead i d l d1 -> forall l' d', stuck ts a names fuel Inv ahead i d1 l' d' ->
    stuck ts a names fuel Inv ahead i d (l ++ l') d'.
  Proof. induction 1; intros l' d2 H'; cbn [app]; [auto|eapply k_recover|eapply k_sync|eapply k_report|eapply k_mismatch]; eauto. Qed.
  Lemma none_reachable : forall d, last_states d = None -> reachable_strategy d.
  Proof. intros d H. exists []. unfold recorded. now rewrite H. Qed.
  Lemma same_reachable : forall d d', last_states d' = last_states d -> reachable_strategy d -> reachable_strategy d'.
  Proof. intros d d' E [l H]. exists l. unfold recorded in *. now rewrite E. Qed.
  Definition kept (d d' : dstrategy) : Prop := last_states d' = last_states d \/ last_states d' = None.
  Lemma kept_reachable : forall d d', kept d d' -> reachable_strategy d -> reachable_strategy d'.
  Proof. intros d d' [E|E] H; [eapply same_reachable; eauto|now apply none_reachable]. Qed.
  Lemma deletion_kept : forall d p d1 p1 t, single_token_deletion ts a names fuel d p = Val (d1, p1, t) -> kept d d1.
  Proof.
    intros d p d1 p1 t H. unfold single_token_deletion in H. destruct (la ts p 2) as [[q nx]| |] eqn:EL; cbn [obindo] in H; try discriminate.
    step H. destruct (contains a0 nx); [|inversion H; left; auto].
    destruct (report_unwanted_token ts a names fuel d q) as [[d2 q2]| |] eqn:ER; cbn [obindo] in H; try discriminate. step H. step H. inversion H; subst. right. auto.
  Qed.
  Lemma insertion_kept : forall d p d1 p1 b, single_token_insertion ts a names fuel d p = Val (d1, p1, b) -> kept d d1.
  Proof.
    intros d p d1 p1 b H. unfold single_token_insertion in H. destruct (la ts p 1) as [[q nx]| |] eqn:EL; cbn [obindo] in H; try discriminate.
    step H. step H. step H. step H. step H. step H. destruct (contains _ nx); [|inversion H; left; auto].
    destruct (report_missing_token ts a names fuel d q) as [[d2 q2]| |] eqn:ER; cbn [obindo] in H; try discriminate. inversion H; subst.
    left. eapply report_token_keeps; eauto.
  Qed.
  Lemma inline_kept : forall d p d1 p1 r, d_recover_inline ts a names fuel d p = Val (d1, p1, r) -> kept d d1.
  Proof.
    intros d p d1 p1 r H. unfold d_recover_inline in H.
    destruct (single_token_deletion ts a names fuel d p) as [[[d2 q] o]| |] eqn:E1; cbn [obindo] in H; try discriminate. pose proof (deletion_kept _ _ _ _ _ E1) as K.
    destruct o; [step H; inversion H; subst; auto|]. apply deletion_same in E1. subst d2.
    destruct (single_token_insertion ts a names fuel d q) as [[[d3 q2] b]| |] eqn:E2; cbn [obindo] in H; try discriminate. pose proof (insertion_kept _ _ _ _ _ E2).
    destruct b; step H; inversion H; subst; auto.
  Qed.
  Lemma sync_kept : forall d p d1 p1 r, d_sync ts a names fuel d p = Val (d1, p1, r) -> kept d d1.
  Proof.
    intros d p d1 p1 r H. unfold d_sync in H. destruct (recovering d); [inversion H; left; auto|].
    destruct (la ts p 1) as [[q nx]| |] eqn:EL; cbn [obindo] in H; try discriminate. step H. step H.
    destruct (contains a1 nx); [inversion H; left; auto|].
    destruct (contains a1 _). { destruct (nt_ctx d); [inversion H; left; auto|]. step H. inversion H; left; auto. }
    destruct (sync_case _); try discriminate.
    - destruct (single_token_deletion ts a names fuel d q) as [[[d2 q2] o]| |] eqn:E2; cbn [obindo] in H; try discriminate. apply deletion_kept in E2.
      destruct o; [|step H]; inversion H; subst; auto.
    - destruct (report_unwanted_token ts a names fuel d q) as [[d2 q2]| |] eqn:E2; cbn [obindo] in H; try discriminate.
      destruct (report_token_keeps _ _ _ _ _ E2) as (_ & K & _). step H. step H. step H. inversion H; subst. left. auto.
  Qed.
  Definition fine (g : strategy) : Prop := match g with Default d | Bail d => reachable_strategy d end.
  Lemma fine_inline : forall g p g1 p1 r, recover_inline ts a names fuel g p = Val (g1, p1, r) -> fine g -> fine g1.
  Proof.
    intros [d|d] p g1 p1 r H F; cbn [recover_inline] in H.
    - destruct (d_recover_inline ts a names fuel d p) as [[[d1 q] r1]| |] eqn:E; cbn [obindo] in H; try discriminate. inversion H; subst.
      eapply kept_reachable; eauto. eapply inline_kept; eauto.
    - step H. step H. inversion H; subst. auto.
  Qed.
  Lemma fine_match : forall g, fine g -> fine (report_match g).
  Proof. intros [d|d] F; cbn; auto. now apply none_reachable. Qed.
  Lemma fine_recover : forall g p e g1 p1 r, recover ts a fuel g p e = Val (g1, p1, r) -> fine g -> fine g1.
  Proof.
    intros [d|d] p e g1 p1 r H F; cbn [recover] in H.
    - destruct (d_recover ts a fuel d p) as [[d1 q]| |] eqn:E; cbn [obindo] in H; try discriminate. inversion H; subst.
      unfold d_recover in E. step E. step E. step E. inversion E; subst. destruct F as [L F]. exists (L ++ [p_state a0]).
      eapply recorded_next; eauto.
    - step H. inversion H; subst. auto.
  Qed.
  Lemma fine_report : forall g p e g1 p1, report_error ts a names fuel g p e = Val (g1, p1) -> fine g -> fine g1.
  Proof.
    intros [d|d] p e g1 p1 H F; cbn [report_error] in H; destruct (d_report_error ts a names fuel d p e) as [[d1 q]| |] eqn:E; cbn [obindo] in H; try discriminate;
      inversion H; subst; (eapply same_reachable; [|exact F]); eapply report_error_keeps; eauto.
  Qed.
  Lemma fine_catch : forall g p r g1 p1 r1, catch ts a names fuel g p r = Val (g1, p1, r1) -> fine g -> fine g1.
  Proof.
    intros g p r g1 p1 r1 H F. unfold catch in H. destruct r as [e|]; [|inversion H; subst; auto].
    destruct e; try (inversion H; subst; auto; fail);
      (match type of H with context [report_error ts a names fuel _ _ ?e] => destruct (report_error ts a names fuel g p e) as [[g2 p2]| |] eqn:E; cbn [obindo] in H; try discriminate end;
       eapply fine_recover; eauto; eapply fine_report; eauto).
  Qed.
  Lemma fine_calls : forall cs, Forall (fun c => forall g p f g' p' f' r, run_call ts a names fuel c g p f = Val (g', p', f', r) -> fine g -> fine g') cs ->
    forall g p f g' p' f' r, run_calls ts a names fuel cs g p f = Val (g', p', f', r) -> fine g -> fine g'.
  Proof.
    induction 1 as [|c cs Hc _ IH]; intros g p f g' p' f' r H F; cbn [run_calls] in H; [inversion H; subst; auto|].
    destruct (run_call ts a names fuel c g p f) as [[[[g1 p1] f1] r1]| |] eqn:E; cbn [obindo] in H; try discriminate.
    destruct r1; [inversion H; subst; eauto|]. eauto.
  Qed.
  Lemma fine_call : forall c g p f g' p' f' r, run_call ts a names fuel c g p f = Val (g', p', f', r) -> fine g -> fine g'.
  Proof.
    induction c as [c N1 N2|rule s pl body IH|rule s n pl body IH] using call_ind'; intros g p f g' p' f' r H F.
    - destruct c as [s|k| |ty| |inset|n|e|[k|]|k| | |k pl|r0 s pl b|r0 s n pl b];
        try solve [exfalso; eapply N1; eauto|exfalso; eapply N2; eauto]; cbn [ParserModel.run_call alloc] in H;
        try (repeat step H; try (destruct a0; step H); inversion H; subst; exact F).
      + destruct (la ts p k) as [[q t]| |]; cbn [obindo] in H; try discriminate. inversion H; subst. auto.
      + unfold no_result in H. destruct (sync ts a names fuel g p) as [[[g1 p1] r1]| |] eqn:E; cbn [obindo] in H; try discriminate. inversion H; subst.
        destruct g as [d|d]; cbn [sync] in E; [|inversion E; subst; auto].
        destruct (d_sync ts a names fuel d p) as [[[d1 q] r1]| |] eqn:E1; cbn [obindo] in E; try discriminate. inversion E; subst.
        eapply kept_reachable; eauto. eapply sync_kept; eauto.
      + unfold no_tok in H. destruct (match_token ts a names fuel g p ty) as [[[g1 p1] r1]| |] eqn:E; cbn [obindo] in H; try discriminate. inversion H; subst.
        unfold match_token in E. step E. destruct (_ =? ty); [step E; inversion E; subst; now apply fine_match|].
        destruct (recover_inline ts a names fuel g p) as [[[g2 q] r2]| |] eqn:E1; cbn [obindo] in E; try discriminate. apply fine_inline in E1; auto.
        destruct r2; [step E|]; inversion E; subst; auto.
      + unfold no_tok in H. destruct (match_wildcard ts a names fuel g p) as [[[g1 p1] r1]| |] eqn:E; cbn [obindo] in H; try discriminate. inversion H; subst.
        unfold match_wildcard in E. step E. destruct (_ >? 0); [step E; inversion E; subst; now apply fine_match|].
        destruct (recover_inline ts a names fuel g p) as [[[g2 q] r2]| |] eqn:E1; cbn [obindo] in E; try discriminate. apply fine_inline in E1; auto.
        destruct r2; [step E|]; inversion E; subst; auto.
      + unfold no_result in H. destruct (match_set ts a names fuel inset g p) as [[[g1 p1] r1]| |] eqn:E; cbn [obindo] in H; try discriminate. inversion H; subst.
        unfold match_set in E. destruct (la ts p 1) as [[q ty]| |]; cbn [obindo] in E; try discriminate.
        destruct (inset ty); [destruct (la ts q 1) as [[q2 ty2]| |]; cbn [obindo] in E; try discriminate; step E; inversion E; subst; now apply fine_match|].
        destruct (recover_inline ts a names fuel g q) as [[[g2 q2] r2]| |] eqn:E1; cbn [obindo] in E; try discriminate. apply fine_inline in E1; auto.
        inversion E; subst; auto.
      + destruct (precpred p n); [|step H]; inversion H; subst; auto.
    - cbn [ParserModel.run_call alloc] in H. step H. rename a0 into p1.
      match type of H with obindo (?rc body g p1 ?fr) _ = _ => change (rc body g p1 fr) with (run_calls ts a names fuel body g p1 fr) in H;
        destruct (run_calls ts a names fuel body g p1 fr) as [[[[g2 p2] f2] r2]| |] eqn:E1; cbn [obindo] in H; try discriminate end.
      destruct (catch ts a names fuel g2 p2 r2) as [[[g3 p3] r3]| |] eqn:E2; cbn [obindo] in H; try discriminate.
      pose proof (fine_calls _ IH _ _ _ _ _ _ _ E1 F) as F2. pose proof (fine_catch _ _ _ _ _ _ E2 F2).
      destruct r3; [|step H]; inversion H; subst; auto.
    - cbn [ParserModel.run_call alloc] in H. step H. rename a0 into p1.
      match type of H with obindo (?rc body g p1 ?fr) _ = _ => change (rc body g p1 fr) with (run_calls ts a names fuel body g p1 fr) in H;
        destruct (run_calls ts a names fuel body g p1 fr) as [[[[g2 p2] f2] r2]| |] eqn:E1; cbn [obindo] in H; try discriminate end.
      destruct (catch ts a names fuel g2 p2 r2) as [[[g3 p3] r3]| |] eqn:E2; cbn [obindo] in H; try discriminate.
      pose proof (fine_calls _ IH _ _ _ _ _ _ _ E1 F) as F2. pose proof (fine_catch _ _ _ _ _ _ E2 F2).
      destruct r3; [|step H]; inversion H; subst; auto.
  Qed.

  (** ** Cancellation *)
  Definition all_clear (cs : list call) : Prop := Forall no_fall_through cs.
  Lemma all_clear_fix : forall cs,
    (fix all (l : list call) : Prop := match l with [] => True | c :: l => no_fall_through c /\ all l end) cs -> all_clear cs.
  Proof. induction cs as [|c cs IH]; intros H; [constructor|]. destruct H. constructor; auto. apply IH; auto. Qed.

  Definition bailed (c : call) : Prop := forall d p f g' p' f' r, run_call ts a names fuel c (Bail d) p f = Val (g', p', f', r) -> no_fall_through c ->
    (exists new, p_notices p' = p_notices p ++ new /\ (length new <= 1)%nat) /\
    match r with
    | None => g' = Bail d /\ p_notices p' = p_notices p
    | Some (FallThrough x) => exists d' e0, g' = Bail d' /\ x = Some e0 /\ is_fall_through e0 = false
    | Some _ => g' = Bail d /\ p_notices p' = p_notices p /\ ~ rule_call c
    end.

  Lemma bail_step : forall c d p f g' p' f' r, run_call ts a names fuel c (Bail d) p f = Val (g', p', f', r) ->
    p_notices p' = p_notices p -> g' = Bail d ->
    match r with Some (FallThrough x) => exists e0, x = Some e0 /\ is_fall_through e0 = false | Some _ => ~ rule_call c | None => True end ->
    (exists new, p_notices p' = p_notices p ++ new /\ (length new <= 1)%nat) /\
    match r with
    | None => g' = Bail d /\ p_notices p' = p_notices p
    | Some (FallThrough x) => exists d' e0, g' = Bail d' /\ x = Some e0 /\ is_fall_through e0 = false
    | Some _ => g' = Bail d /\ p_notices p' = p_notices p /\ ~ rule_call c
    end.
  Proof.
    intros c d p f g' p' f' r _ N G H. split; [exists []; rewrite app_nil_r; auto|]. destruct r as [[]|]; auto. destruct H as (e0 & ? & ?). eauto.
  Qed.
  Lemma bail_inline : forall d p g q r, recover_inline ts a names fuel (Bail d) p = Val (g, q, r) ->
    g = Bail d /\ q = p /\ exists b, r = inr (FallThrough (Some (InputMismatchError b))) /\ base_error_new ts p = Val b.
  Proof. intros d p g q r H. cbn [recover_inline] in H. step H. unfold process_error in H. step H. step E0. inversion E0; subst. inversion H; subst. eauto. Qed.
  Lemma bail_token : forall d p ty g q r, match_token ts a names fuel (Bail d) p ty = Val (g, q, r) ->
    g = Bail d /\ p_notices q = p_notices p /\ match r with inl _ => True | inr e => q = p /\ exists b, e = FallThrough (Some (InputMismatchError b)) end.
  Proof.
    intros d p ty g q r H. unfold match_token in H. step H. destruct (_ =? ty).
    - step H. inversion H; subst. destruct (consume_notices _ _ _ E0) as [N _]. rewrite N. destruct (_ =? _); auto.
    - destruct (recover_inline ts a names fuel (Bail d) p) as [[[g2 q2] r1]| |] eqn:E1; cbn [obindo] in H; try discriminate.
      destruct (bail_inline _ _ _ _ _ E1) as (-> & -> & b & -> & Hb). inversion H; subst. eauto 10.
  Qed.
  Lemma bail_wildcard : forall d p g q r, match_wildcard ts a names fuel (Bail d) p = Val (g, q, r) ->
    g = Bail d /\ p_notices q = p_notices p /\ match r with inl _ => True | inr e => q = p /\ exists b, e = FallThrough (Some (InputMismatchError b)) end.
  Proof.
    intros d p g q r H. unfold match_wildcard in H. step H. destruct (_ >? 0).
    - step H. inversion H; subst. destruct (consume_notices _ _ _ E0) as [N _]. rewrite N. auto.
    - destruct (recover_inline ts a names fuel (Bail d) p) as [[[g2 q2] r1]| |] eqn:E1; cbn [obindo] in H; try discriminate.
      destruct (bail_inline _ _ _ _ _ E1) as (-> & -> & b & -> & Hb). inversion H; subst. eauto 10.
  Qed.
  Lemma bail_set : forall inset d p g q r, match_set ts a names fuel inset (Bail d) p = Val (g, q, r) ->
    g = Bail d /\ p_notices q = p_notices p /\ match r with None => True | Some e => q = with_input p (p_input q) /\ exists b, e = FallThrough (Some (InputMismatchError b)) end.
  Proof.
    intros inset d p g q r H. unfold match_set in H. destruct (la ts p 1) as [[q0 ty]| |] eqn:EL; cbn [obindo] in H; try discriminate.
    pose proof (la_notices _ _ _ _ EL) as NL. destruct (inset ty).
    - destruct (la ts q0 1) as [[q2 ty2]| |] eqn:EL2; cbn [obindo] in H; try discriminate. pose proof (la_notices _ _ _ _ EL2) as NL2. step H. inversion H; subst.
      destruct (consume_notices _ _ _ E) as [N _]. split; auto. split; auto. rewrite N. destruct (_ =? _); cbn; congruence.
    - destruct (recover_inline ts a names fuel (Bail d) q0) as [[[g2 q2] r1]| |] eqn:E1; cbn [obindo] in H; try discriminate.
      destruct (bail_inline _ _ _ _ _ E1) as (-> & -> & b & -> & Hb). inversion H; subst. split; auto. split; auto. split; eauto.
      unfold la, lt in EL. destruct (s_lt ts (p_input p) 1) as [[s o]| |]; cbn [obindo] in EL; try discriminate. inversion EL; subst. reflexivity.
  Qed.
  Lemma bail_catch : forall d p r g' p' r', catch ts a names fuel (Bail d) p r = Val (g', p', r') ->
    match r with
    | None => g' = Bail d /\ p' = p /\ r' = None
    | Some (FallThrough x) => g' = Bail d /\ p' = p /\ r' = Some (FallThrough x)
    | Some e => r' = Some (FallThrough (Some e)) /\ (exists d', g' = Bail d') /\ exists new, p_notices p' = p_notices p ++ new /\ (length new <= 1)%nat
    end.
  Proof.
    intros d p r g' p' r' H. unfold catch in H. destruct r as [e|]; [|inversion H; auto].
    destruct e; try (inversion H; subst; auto; fail);
      (match type of H with context [report_error ts a names fuel _ _ ?e] => destruct (report_error ts a names fuel (Bail d) p e) as [[g1 p1]| |] eqn:E; cbn [obindo] in H; try discriminate end;
       cbn [report_error] in E;
       match type of E with context [d_report_error ts a names fuel d p ?e] => destruct (d_report_error ts a names fuel d p e) as [[d1 q]| |] eqn:E1; cbn [obindo] in E; try discriminate end;
       inversion E; subst; cbn [recover] in H; unfold process_error in H; step H; step E0; inversion E0; subst; inversion H; subst;
       split; auto; split; eauto;
       unfold d_report_error in E1; destruct (recovering d); [inversion E1; subst; exists []; rewrite app_nil_r; auto|];
       step E1; step E1; inversion E1; subst; unfold notify_error_listeners in E4; step E4; inversion E4; subst; eexists; split; [reflexivity|auto]).
  Qed.

  Lemma bail_body : forall cs, Forall bailed cs -> all_clear cs -> forall d p f g' p' f' r,
    run_calls ts a names fuel cs (Bail d) p f = Val (g', p', f', r) ->
    (exists new, p_notices p' = p_notices p ++ new /\ (length new <= 1)%nat) /\
    match r with
    | None => g' = Bail d /\ p_notices p' = p_notices p
    | Some (FallThrough x) => exists d' e0, g' = Bail d' /\ x = Some e0 /\ is_fall_through e0 = false
    | Some _ => g' = Bail d /\ p_notices p' = p_notices p
    end.
  Proof.
    induction 1 as [|c cs Hc _ IH]; intros HC d p f g' p' f' r H; cbn [run_calls] in H.
    - inversion H; subst. split; [exists []; rewrite app_nil_r; auto|auto].
    - inversion HC; subst. destruct (run_call ts a names fuel c (Bail d) p f) as [[[[g1 p1] f1] r1]| |] eqn:E; cbn [obindo] in H; try discriminate.
      destruct (Hc _ _ _ _ _ _ _ E H2) as [N1 K]. destruct r1 as [e|].
      + inversion H; subst. split; auto. destruct e; tauto.
      + destruct K as [-> K]. destruct (IH H3 _ _ _ _ _ _ _ H) as [N2 K2]. rewrite K in N2. split; auto. destruct r as [e|]; [|now rewrite <- K].
        destruct e; try rewrite <- K; auto.
  Qed.

  Lemma enter_event_same : forall p q : parser S, trigger_enter_rule_event p = Val q -> p_notices q = p_notices p.
  Proof. intros p q H. unfold trigger_enter_rule_event in H. step H. step H. inversion H; subst. destruct (x_plain _); reflexivity. Qed.
  Lemma exit_event_same : forall p q : parser S, trigger_exit_rule_event p = Val q -> p_notices q = p_notices p.
  Proof. intros p q H. unfold trigger_exit_rule_event in H. step H. step H. inversion H; subst. destruct (x_plain _); reflexivity. Qed.
  Lemma lt_same : forall p k q t, lt ts p k = Val (q, t) -> p_notices q = p_notices p.
  Proof. intros p k q t H. unfold lt in H. step H. destruct a0. inversion H; subst. reflexivity. Qed.
  Lemma enter_rule_same : forall p n s q, enter_rule ts p n s = Val q -> p_notices q = p_notices p.
  Proof.
    intros p n s q H. unfold enter_rule in H. destruct (lt ts (set_state p s) 1) as [[q1 t]| |] eqn:E; cbn [obindo] in H; try discriminate. apply lt_same in E.
    destruct (p_build _); [|inversion H; subst; exact E]. unfold add_context_to_parse_tree in H. step H. step H. inversion H; subst.
    destruct (x_parent _); exact E.
  Qed.
  Lemma exit_rule_same : forall p q, exit_rule ts p = Val q -> p_notices q = p_notices p.
  Proof.
    intros p q H. unfold exit_rule in H. step H.
    match type of H with context [lt ts p ?k] => destruct (lt ts p k) as [[q1 t]| |] eqn:E1; cbn [obindo] in H; try discriminate end.
    apply lt_same in E1. step H. step H. inversion H; subst. apply exit_event_same in E0. cbn in E0 |- *. congruence.
  Qed.
  Lemma outer_alt_same : forall (p : parser S) n q, enter_outer_alt p n = Val q -> p_notices q = p_notices p.
  Proof.
    intros p n q H. unfold enter_outer_alt in H. step H. apply enter_event_same in H. rewrite H. destruct n as [n|]; [|inversion E; subst; auto].
    step E. step E. inversion E; subst. destruct (_ && _); auto. destruct (x_parent _); auto.
  Qed.
  Lemma enter_rec_same : forall p n s k q, enter_recursion_rule ts p n s k = Val q -> p_notices q = p_notices p.
  Proof.
    intros p n s k q H. unfold enter_recursion_rule in H.
    match type of H with context [lt ts ?p ?k] => destruct (lt ts p k) as [[q1 t]| |] eqn:E1; cbn [obindo] in H; try discriminate end.
    apply lt_same in E1. inversion H; subst. exact E1.
  Qed.
  Lemma push_same : forall p n s q, push_new_recursion_context ts p n s = Val q -> p_notices q = p_notices p.
  Proof.
    intros p n s q H. unfold push_new_recursion_context in H. step H.
    match type of H with context [lt ts ?p ?k] => destruct (lt ts p k) as [[q1 t]| |] eqn:E1; cbn [obindo] in H; try discriminate end.
    apply lt_same in E1. step H. apply enter_event_same in H. rewrite H. destruct (p_build _); exact E1.
  Qed.
  Lemma unroll_loop_same : forall n (p : parser S) parent q, unroll_loop n p parent = Val q -> p_notices q = p_notices p.
  Proof.
    induction n as [|n IH]; intros p parent q H; cbn [unroll_loop] in H; destruct (same_ctx _ _); try discriminate; try (inversion H; subst; auto; fail).
    step H. step H. step H. rewrite (IH _ _ _ H). apply exit_event_same in E. cbn. exact E.
  Qed.
  Lemma unroll_same : forall p parent q, unroll_recursion_context ts p parent = Val q -> p_notices q = p_notices p.
  Proof.
    intros p parent q H. unfold unroll_recursion_context in H. step H.
    match type of H with context [lt ts ?p ?k] => destruct (lt ts p k) as [[q1 t]| |] eqn:E1; cbn [obindo] in H; try discriminate end.
    apply lt_same in E1. step H. inversion H; subst. clear H.
    assert (p_notices a1 = p_notices p).
    { destruct (p_listeners _); [inversion E0; subst; exact E1|]. apply unroll_loop_same in E0. rewrite E0. exact E1. }
    destruct (p_ctx _); [destruct (p_build _)|]; exact H.
  Qed.

  Lemma bail_rule : forall d p f g2 p2 f2 r2 g3 p3 r3 body,
    Forall bailed body -> all_clear body -> run_calls ts a names fuel body (Bail d) p f = Val (g2, p2, f2, r2) ->
    catch ts a names fuel g2 p2 r2 = Val (g3, p3, r3) ->
    (exists new, p_notices p3 = p_notices p ++ new /\ (length new <= 1)%nat) /\
    match r3 with
    | None => g3 = Bail d /\ p_notices p3 = p_notices p
    | Some (FallThrough x) => exists d' e0, g3 = Bail d' /\ x = Some e0 /\ is_fall_through e0 = false
    | Some _ => False
    end.
  Proof.
    intros d p f g2 p2 f2 r2 g3 p3 r3 body HB HC H1 H2. destruct (bail_body _ HB HC _ _ _ _ _ _ _ H1) as [N K].
    destruct r2 as [e|].
    - assert (EX : exists d', g2 = Bail d') by (destruct e; try (destruct K as [-> _]; eauto); destruct K as (d' & _ & -> & _); eauto).
      destruct EX as [d' ->]. pose proof (bail_catch _ _ _ _ _ _ H2) as C.
      destruct e; try (destruct C as (-> & [d3 ->] & new & EN & LN); destruct K as [_ K]; rewrite K in EN; split; eauto 10).
      destruct C as (-> & -> & ->). destruct K as (d2 & e0 & K1 & K2 & K3). split; auto. eauto.
    - destruct K as [-> K]. destruct (bail_catch _ _ _ _ _ _ H2) as (-> & -> & ->). auto.
  Qed.

  Lemma all_bailed : forall c, bailed c.
  Proof.
    induction c as [c N1 N2|rule s pl body IH|rule s n pl body IH] using call_ind'; intros d p f g' p' f' r H NF.
    - destruct c as [s|k| |ty| |inset|n|e|[k|]|k| | |k pl|r0 s pl b|r0 s n pl b];
        try solve [exfalso; eapply N1; eauto|exfalso; eapply N2; eauto]; (cut (p_notices p' = p_notices p /\ g' = Bail d /\ match r with Some (FallThrough x) => exists e0, x = Some e0 /\ is_fall_through e0 = false | Some _ => True | None => True end);
        [intros (F1 & F2 & F3); refine (bail_step _ _ _ _ _ _ _ _ H F1 F2 _); destruct r as [[]|]; auto|]); cbn [ParserModel.run_call alloc] in H.
      + inversion H; subst. auto.
      + destruct (la ts p k) as [[q t]| |] eqn:E; cbn [obindo] in H; try discriminate. apply la_notices in E. inversion H; subst. auto.
      + unfold no_result in H. cbn [sync obindo] in H. inversion H; subst. auto.
      + unfold no_tok in H. destruct (match_token ts a names fuel (Bail d) p ty) as [[[g1 p1] r1]| |] eqn:E; cbn [obindo] in H; try discriminate.
        destruct (bail_token _ _ _ _ _ _ E) as (-> & N & K). inversion H; subst. destruct r1; auto. destruct K as (_ & b & ->). eauto.
      + unfold no_tok in H. destruct (match_wildcard ts a names fuel (Bail d) p) as [[[g1 p1] r1]| |] eqn:E; cbn [obindo] in H; try discriminate.
        destruct (bail_wildcard _ _ _ _ _ E) as (-> & N & K). inversion H; subst. destruct r1; auto. destruct K as (_ & b & ->). eauto.
      + unfold no_result in H. destruct (match_set ts a names fuel inset (Bail d) p) as [[[g1 p1] r1]| |] eqn:E; cbn [obindo] in H; try discriminate.
        destruct (bail_set _ _ _ _ _ _ E) as (-> & N & K). inversion H; subst. destruct r as [e|]; auto. destruct K as (_ & b & ->). eauto.
      + destruct (precpred p n); [inversion H; subst; auto|]. step H. inversion H; subst.
        unfold failed_predicate in E. step E. step E. destruct (match _ with PredicateTr _ _ _ _ => _ | _ => _ end). step E.
        inversion E; subst. auto.
      + inversion H; subst. destruct e; auto. discriminate.
      + step H. step H. inversion H; subst. apply outer_alt_same in E0. auto.
      + step H. inversion H; subst. apply outer_alt_same in E. auto.
      + step H. inversion H; subst. auto.
      + destruct (lt ts p (-1)) as [[q t]| |] eqn:E; cbn [obindo] in H; try discriminate. apply lt_same in E. step H. inversion H; subst. auto.
      + step H. inversion H; subst. apply exit_event_same in E. auto.
      + step H. inversion H; subst. apply push_same in E. auto.
    - cbn [ParserModel.run_call alloc] in H. step H. rename a0 into p1. apply enter_rule_same in E. cbn in E.
      match type of H with obindo (?rc body (Bail d) p1 ?fr) _ = _ => change (rc body (Bail d) p1 fr) with (run_calls ts a names fuel body (Bail d) p1 fr) in H;
        destruct (run_calls ts a names fuel body (Bail d) p1 fr) as [[[[g2 p2] f2] r2]| |] eqn:E1; cbn [obindo] in H; try discriminate end.
      destruct (catch ts a names fuel g2 p2 r2) as [[[g3 p3] r3]| |] eqn:E2; cbn [obindo] in H; try discriminate.
      destruct (bail_rule _ _ _ _ _ _ _ _ _ _ _ IH (all_clear_fix _ NF) E1 E2) as [N K]. rewrite E in N, K.
      destruct r3 as [e|].
      + inversion H; subst. split; auto. destruct e; try contradiction. auto.
      + step H. inversion H; subst. apply exit_rule_same in E0. rewrite E0. auto.
    - cbn [ParserModel.run_call alloc] in H. step H. rename a0 into p1. apply enter_rec_same in E. cbn in E.
      match type of H with obindo (?rc body (Bail d) p1 ?fr) _ = _ => change (rc body (Bail d) p1 fr) with (run_calls ts a names fuel body (Bail d) p1 fr) in H;
        destruct (run_calls ts a names fuel body (Bail d) p1 fr) as [[[[g2 p2] f2] r2]| |] eqn:E1; cbn [obindo] in H; try discriminate end.
      destruct (catch ts a names fuel g2 p2 r2) as [[[g3 p3] r3]| |] eqn:E2; cbn [obindo] in H; try discriminate.
      destruct (bail_rule _ _ _ _ _ _ _ _ _ _ _ IH (all_clear_fix _ NF) E1 E2) as [N K]. rewrite E in N, K.
      destruct r3 as [e|].
      + inversion H; subst. split; auto. destruct e; try contradiction. auto.
      + step H. inversion H; subst. apply unroll_same in E0. rewrite E0. auto.
  Qed.
End Recover.
