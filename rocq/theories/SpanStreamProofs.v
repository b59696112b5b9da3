(** The usual token stream meets the assumptions of [looking] (SpanSpec.v). *)
From Coq Require Import ZArith List Bool Lia.
From Coq Require Import ZifyBool ZifyNat.
From Verif Require Import Outcome IntervalSetModel AtnModel CharStreamModel TokenStreamModel TokenStreamSpec TokenStreamProofs CommonTokenStreamProofs.
From Verif Require Import Ll1Model ParserModel ParserSpec ParserTreeProofs ParserRunProofs ParserEventProofs ParserStreamProofs SpanSpec.
Import ListNotations.
Local Open Scope Z_scope.

Section Common.
  Variable src : nat -> tok.
  Variable ch : Z.
  Variable fuel : nat.
  Variable e : nat.
  Hypothesis He : eof_number src e.
  Hypothesis Hf : (e <= fuel)%nat.
  Hypothesis H0 : visible src ch 0.
  Notation stream := (common_stream src ch fuel).
  Notation reading := (reading src ch).
  Notation read_so_far := (read_so_far src ch).
  Definition at_cursor (s : uts) : tok := tok_at src (Z.to_nat (cur s)).

  Lemma before_split : forall c d, tokens_before src ch (c + d) = tokens_before src ch c ++ map (tok_at src) (filter (seen_b src ch) (seq c d)).
  Proof. intros c d. unfold tokens_before. rewrite seq_app, filter_app, map_app. reflexivity. Qed.
  Lemma before_S : forall c, tokens_before src ch (S c) = tokens_before src ch c ++ (if seen_b src ch c then [tok_at src c] else []).
  Proof. intros c. replace (S c) with (c + 1)%nat by lia. rewrite before_split. cbn [seq filter]. destruct (seen_b src ch c); reflexivity. Qed.
  Lemma before_more : forall c d, (c < d)%nat -> seen_b src ch c = true -> exists more, tokens_before src ch d = tokens_before src ch c ++ tok_at src c :: more.
  Proof.
    intros c d H Q. replace d with (c + S (d - c - 1))%nat by lia. rewrite before_split. cbn [seq filter]. rewrite Q. cbn [map]. eauto.
  Qed.
  Lemma before_last : forall c l x, tokens_before src ch c = l ++ [x] ->
    exists j, (j < c)%nat /\ seen_b src ch j = true /\ x = tok_at src j /\ forall m, (j < m < c)%nat -> seen_b src ch m = false.
  Proof.
    induction c as [|c IH]; intros l x H; [destruct l; discriminate|]. rewrite before_S in H. destruct (seen_b src ch c) eqn:E.
    - apply app_inj_tail in H as [_ <-]. exists c. repeat split; auto. intros m Hm. lia.
    - rewrite app_nil_r in H. destruct (IH _ _ H) as (j & H1 & H2 & H3 & H4). exists j. repeat split; auto; try lia.
      intros m Hm. destruct (Nat.eq_dec m c) as [->|D]; auto. apply H4. lia.
  Qed.
  Lemma before_in : forall c x, In x (tokens_before src ch c) -> exists j, (j < c)%nat /\ x = tok_at src j.
  Proof.
    intros c x H. unfold tokens_before in H. apply in_map_iff in H as (j & <- & H). apply filter_In in H as [H _]. apply in_seq in H. exists j. split; [lia|auto].
  Qed.

  Lemma reading_at : forall s, reading s -> exists n c, crep src n s /\ cur s = Z.of_nat c /\ seen_b src ch c = true /\ Z.to_nat (cur s) = c /\
    (forall m, (m < c)%nat -> ~ is_eof src m) /\ (c <= e)%nat.
  Proof.
    intros s (n & c & R & Hc & Hv). exists n, c. split; auto. split; auto. split; [now apply seen_visible|]. split; [lia|].
    assert (N : forall m, (m < c)%nat -> ~ is_eof src m).
    { intros m Hm. destruct R as [R _]. apply (rep_noeof_cur _ _ _ _ _ R Hc). lia. }
    split; auto. destruct (Nat.le_gt_cases c e); auto. exfalso. apply (N e); auto. apply He.
  Qed.

  Lemma common_looking : looking stream reading read_so_far at_cursor (eq (tok_at src e)).
  Proof.
    constructor; cbn [s_lt s_get s_index s_consume common_stream].
    - intros s s' t R H. destruct (reading_at _ R) as (n & c & C & Hc & Hs & Hz & N & L). apply of_out_val in H. unfold clt in H. cbn in H. injection H as <- <-.
      pose proof (crep_cur _ _ _ C) as Hp. destruct C as [C Hn]. unfold at_cursor. rewrite Hz. replace (p s) with (Z.of_nat c) by lia. apply rep_get with (n := n); auto. lia.
    - intros s t R Hg. destruct (reading_at _ R) as (n & c & C & Hc & Hs & Hz & N & L). apply of_out_val in Hg.
      pose proof (crep_cur _ _ _ C) as Hp. destruct C as [C Hn]. unfold at_cursor. rewrite Hz.
      unfold TokenStreamModel.get, get_buffer_start_index in Hg. replace (cur s - (cur s - p s)) with (Z.of_nat c) in Hg by lia.
      rewrite (rep_get src n s c C) in Hg by lia. now inversion Hg.
    - intros s s' t l x R H P. destruct (reading_at _ R) as (n & c & C & Hc & Hs & Hz & N & L). apply of_out_val in H.
      unfold ParserStreamProofs.read_so_far in P. rewrite Hz in P. destruct (before_last _ _ _ P) as (j & J1 & J2 & -> & J3).
      assert (B : kth_back src ch c (Z.to_nat 1) j).
      { apply kb_one. split; auto. split.
        - assert (V : visible src ch j) by (destruct (proj1 (seen_visible src ch fuel j) J2) as [Q|Q]; [rewrite Q; exact H0|exact Q]).
          destruct V as [J|J]; auto. exfalso. apply (N j); auto.
        - intros m Hm Q. specialize (J3 m Hm). assert (seen_b src ch m = true) by (apply (seen_visible src ch fuel); right; left; auto). congruence. }
      pose proof (lb_found src ch fuel n s c 1 j C Hc ltac:(lia) ltac:(lia) B) as F. change (- (1)) with (-1) in F. rewrite F in H. now inversion H.
    - intros s r Rs Rr P. destruct (reading_at _ Rs) as (n & c & C & Hc & Hs & Hz & N & L). destruct (reading_at _ Rr) as (n' & c' & C' & Hc' & Hs' & Hz' & N' & L').
      unfold ParserStreamProofs.read_so_far, at_cursor in *. rewrite Hz, Hz' in *. f_equal.
      destruct (Nat.lt_trichotomy c c') as [Q|[Q|Q]]; auto; exfalso.
      + destruct (before_more c c' Q Hs) as (more & E). rewrite E in P. rewrite <- (app_nil_r (tokens_before src ch c)) in P at 2. apply app_inv_head in P. discriminate.
      + destruct (before_more c' c Q Hs') as (more & E). rewrite E in P. rewrite <- (app_nil_r (tokens_before src ch c')) in P at 1. apply app_inv_head in P. discriminate.
    - intros s r x more Rs Rr P. destruct (reading_at _ Rs) as (n & c & C & Hc & Hs & Hz & N & L). destruct (reading_at _ Rr) as (n' & c' & C' & Hc' & Hs' & Hz' & N' & L').
      unfold ParserStreamProofs.read_so_far, at_cursor in *. rewrite Hz, Hz' in *.
      destruct (Nat.lt_trichotomy c c') as [Q|[Q|Q]].
      + destruct (before_more c c' Q Hs) as (more' & E). rewrite E in P. apply app_inv_head in P. injection P as <- _. split; auto. exact (N' c Q).
      + rewrite <- Q, <- (app_nil_r (tokens_before src ch c)) in P at 1. apply app_inv_head in P. discriminate.
      + exfalso. destruct (before_more c' c Q Hs') as (more' & E). rewrite E, <- app_assoc in P.
        rewrite <- (app_nil_r (tokens_before src ch c')) in P at 1. apply app_inv_head in P. discriminate.
    - intros s R. destruct (reading_at _ R) as (n & c & C & Hc & Hs & Hz & N & L). unfold ParserStreamProofs.read_so_far. rewrite Hz.
      apply Forall_forall. intros x Hx. apply before_in in Hx as (j & Hj & ->). specialize (N j Hj). unfold is_eof in N. unfold was_read, tok_at, set_index. cbn [t_type t_index].
      change TokenStreamModel.TOKEN_EOF with (-1) in N. cbn. lia.
    - intros s R T. destruct (reading_at _ R) as (n & c & C & Hc & Hs & Hz & N & L). unfold at_cursor in *. rewrite Hz in *. f_equal.
      destruct (Nat.eq_dec e c) as [Q|Q]; auto. exfalso. destruct He as [_ HM]. apply (HM c); [lia|exact T].
  Qed.
End Common.
