(** C43 and C44: the ATN deserializer. *)
From Coq Require Import ZArith List Bool Lia ZifyBool ZifyNat.
From Verif Require Import Outcome IntervalSetModel IntervalSetSpec ConfigSetModel AtnModel AtnSpec DeserModel DeserSpec DeserProofs.
Import ListNotations.
Local Open Scope Z_scope.

(** ** C43 *)

(** the header is refused unless it is version 3 followed by one of the four known ids *)
Theorem C43_bad_header : forall chars, Forall (fun c => 0 <= c) chars ->
  (exists words rest, chars = 3 :: words ++ rest /\ length words = 8%nat /\ In (number_of (map word_value words)) known_uuids) \/
  deserialize chars = Panics.
Proof.
  intros [|c chars] F; [right; reflexivity|]. inversion F; subst.
  unfold deserialize. cbn [map next obindo].
  destruct (Z.eq_dec c 3) as [->|Hc].
  2:{ right. unfold SERIALIZED_VERSION. replace (decode_word c + 2 =? 3) with false; [reflexivity|]. symmetry. apply Z.eqb_neq. unfold decode_word. destruct (Z.gtb_spec c 65535); lia. }
  change (decode_word 3 + 2 =? SERIALIZED_VERSION) with true. cbn [negb].
  destruct (check_uuid_cases chars) as [(E1 & E2) | E].
  - left. exists (firstn 8 chars), (skipn 8 chars). rewrite firstn_skipn. auto.
  - right. rewrite E. reflexivity.
Qed.
Print Assumptions C43_bad_header.

(** a known header is not what makes deserialisation fail: what follows it decides *)
Theorem C43_good_header : forall words rest, length words = 8%nat ->
  In (number_of (map word_value words)) known_uuids ->
  check_uuid (map decode_word (words ++ rest)) = Val (map decode_word rest).
Proof. intros words rest L I. apply check_uuid_good; auto. Qed.
Print Assumptions C43_good_header.

(** a word is the character minus two; characters that had to avoid the
    surrogates are moved back first.  Missing from the full statement: the two
    characters 0 and 1, which stand for 65534 and 65535, see below *)
Theorem C43_word_partial : forall v, 0 <= v <= 65533 ->
  decode_word (encode_word v) = v /\
  forall c, (0 <= c <= 55295 \/ 57344 <= c <= 65535 \/ 67584 <= c <= 69631) -> word_value c = v -> c = encode_word v.
Proof.
  intros v H. split.
  - unfold decode_word, encode_word. rewrite Z.mod_small by lia. destruct ((55296 <=? v + 2) && (v + 2 <=? 57343)) eqn:E.
    + replace (v + 2 + 12288 >? 65535) with true by lia. lia.
    + replace (v + 2 >? 65535) with false by lia. lia.
  - intros c Hc Hv. unfold word_value in Hv. unfold encode_word. subst v. rewrite Zplus_mod_idemp_l.
    destruct Hc as [Hc|[Hc|Hc]].
    + replace (c <=? 65535) with true in * by lia. replace (c - 2 + 2) with c by lia. rewrite Z.mod_small by lia.
      replace ((55296 <=? c) && (c <=? 57343)) with false by lia. lia.
    + replace (c <=? 65535) with true in * by lia. replace (c - 2 + 2) with c by lia. rewrite Z.mod_small by lia.
      replace ((55296 <=? c) && (c <=? 57343)) with false by lia. lia.
    + replace (c <=? 65535) with false in * by lia. replace (c - 12288 - 2 + 2) with (c - 12288) by lia. rewrite Z.mod_small by lia.
      replace ((55296 <=? c - 12288) && (c - 12288 <=? 57343)) with true by lia. lia.
Qed.
Print Assumptions C43_word_partial.

(** the 16-bit wrap is missing: 65535 and 65534 come back as -1 and -2 ... *)
Theorem C43_wrap_refuted :
  (forall v, v = 65534 \/ v = 65535 -> decode_word (encode_word v) = v - 65536) /\
  (* ... so a grammar whose largest token type is 65535 is read as one without tokens *)
  (forall u d, In u known_uuids -> desc_ok (with_max d (-1)) ->
     deserialize (serialize u (with_max d 65535)) = Val (atn_of (with_max d (-1))) /\
     max_token_type (atn_of (with_max d (-1))) = -1).
Proof.
  split.
  - intros v [->| ->]; reflexivity.
  - intros u d Hu Ho. split; [|reflexivity]. rewrite <- (deserialize_ok _ Ho _ Hu). reflexivity.
Qed.
Print Assumptions C43_wrap_refuted.

(** ** C44 *)

(** Missing from the full statement: values that do not fit a 16-bit word below
    65534, and removed states, see below. *)
Theorem C44_round_trip_partial : forall u d, In u known_uuids -> desc_ok d ->
  deserialize (serialize u d) = Val (atn_of d).
Proof. intros u d Hu Ho. apply deserialize_ok; auto. Qed.
Print Assumptions C44_round_trip_partial.

(** the code points U+FFFE and U+FFFF as labels of an atom or a range, written
    without their "this is EOF" flag, are read as the symbols EPSILON (-2) and EOF (-1) *)
Theorem C44_high_label_refuted : forall sets i l src trg v rest (s : atn_state),
  v = 65534 \/ v = 65535 -> 0 <= src < 55294 -> 0 <= trg < 55294 -> nth_error l (Z.to_nat src) = Some s ->
  read_edge sets i l (map decode_word (map encode_word (ser_edge (src, trg, EAtom v))) ++ rest) =
  Val (set_nth (Z.to_nat src) (add_transition s (Atom trg (v - 65536))) l, rest).
Proof.
  intros sets i l src trg v rest s Hv Hs Ht E.
  assert (W : forall x, 0 <= x < 55294 -> decode_word (encode_word x) = x).
  { intros x Hx. apply C43_word_partial. lia. }
  unfold ser_edge. rewrite map_map.
  assert ((if v =? -1 then [5; 0; 0; 1] else [5; v; 0; 0]) = [5; v; 0; 0]) as -> by (destruct Hv; subst; reflexivity).
  unfold read_edge. cbn [map app next obindo]. rewrite (W src), (W trg) by auto.
  change (decode_word (encode_word 5)) with 5. change (decode_word (encode_word 0)) with 0.
  assert (decode_word (encode_word v) = v - 65536) as -> by (destruct Hv; subst; reflexivity).
  rewrite !as_usize_nat by lia. cbn [edge_factory obindo]. change (negb (0 =? 0)) with false. cbn match.
  unfold upd, DfaModel.vget, DfaModel.vset. replace (src <? 0) with false by lia. rewrite E. cbn [obindo unwrap].
  assert (L : (Z.to_nat src < length l)%nat) by (apply nth_error_Some; congruence).
  replace (false || (Z.of_nat (length l) <=? src)) with false by lia. reflexivity.
Qed.
Print Assumptions C44_high_label_refuted.

(** a grammar with a removed state does not come back *)
Theorem C44_removed_state_refuted : exists d, In None (d_states d) /\
  (forall s, In s (d_states d) -> s = None \/ exists k r, s = Some (k, r) /\ word r /\ kind_ok d k r) /\
  deserialize (serialize 0x596277843BE5417AB9EB8131A7286089 d) = Panics.
Proof.
  exists (Desc PARSER 3 [Some (KRuleStart, 0); None; Some (KRuleStop, 0); Some (KBasic, 0)] [] [] [(0, 0)] [] [] []
            [(0, 3, EEpsilon); (3, 2, EAtom 1)] [] []).
  split; [cbn; auto|]. split; [|vm_compute; reflexivity].
  intros s [<-|[<-|[<-|[<-|[]]]]]; auto; right; do 2 eexists; (split; [reflexivity|]); (split; [unfold word; lia|cbn; unfold is_rule; cbn; auto; lia]).
Qed.
Print Assumptions C44_removed_state_refuted.

(** ** a grammar with every kind of state and edge *)
Definition example_desc : desc :=
  Desc LEXER 3
    [ Some (KTokenStart, -1);
      Some (KRuleStart, 0); Some (KRuleStop, 0); Some (KStarLoopEntry, 0); Some (KStarBlockStart 5, 0); Some (KBlockEnd, 0);
      Some (KLoopEnd 7, 0); Some (KStarLoopBack, 0); Some (KBasic, 0);
      Some (KRuleStart, 1); Some (KRuleStop, 1); Some (KPlusBlockStart 12, 1); Some (KBlockEnd, 1); Some (KPlusLoopBack, 1);
      Some (KBlockStart 12, 1); Some (KBasic, 1) ]
    [3; 4] [1] [(1, 1); (9, 2)] [0]
    [[Iv (-1) (-1); Iv 65 90]] [[Iv 65536 65600; Iv 70000 70000]]
    [ (0, 1, EEpsilon); (0, 9, EEpsilon);
      (1, 3, EEpsilon); (3, 4, EEpsilon); (3, 6, EEpsilon); (4, 8, EPrecedence 2); (8, 5, ERule 9 1 0); (8, 5, ERule 1 0 0); (5, 7, EEpsilon);
      (7, 3, EEpsilon); (6, 2, EEpsilon);
      (9, 11, EPredicate 1 0 true); (11, 12, EAtom 65533); (12, 13, EAction 1 0 false); (13, 11, ESet 0); (13, 15, ENotSet 1);
      (15, 10, EWildcard); (15, 10, ERange (-1) 5); (14, 12, EAtom (-1)); (14, 12, ERange 97 122) ]
    [0; 3; 4; 13; 14] [LexerTypeAction 3; LexerChannelAction 1; LexerSkipAction; LexerCustomAction 1 0; LexerPopModeAction].

Example C44_nonvacuous : In 0x596277843BE5417AB9EB8131A7286089 known_uuids /\ desc_ok example_desc.
Proof.
  split; [cbn; auto|].
  assert (S : forall i, 0 <= i < 16 -> is_state example_desc i).
  { intros i H. destruct (kind_at example_desc i) as [[k r]|] eqn:E; [exists k, r; auto|]. exfalso.
    unfold kind_at in E. replace (i <? 0) with false in E by lia.
    assert (exists s, nth_error (d_states example_desc) (Z.to_nat i) = Some (Some s)) as [s Es].
    { assert (Hn : (Z.to_nat i < 16)%nat) by lia. revert Hn. generalize (Z.to_nat i). intros n Hn.
      do 16 (destruct n as [|n]; [eexists; reflexivity|]). lia. }
    rewrite Es in E. discriminate. }
  constructor; cbn [d_max d_states d_nongreedy d_leftrec d_rules d_modes d_sets16 d_sets32 d_edges d_decisions d_actions example_desc].
  - unfold word; lia.
  - unfold count_ok. cbn. lia.
  - intros s H. cbn in H.
    repeat (destruct H as [<-|H]; [do 2 eexists; split; [reflexivity|split; [unfold word; lia|cbn; unfold nat_word, is_rule; cbn; try lia; auto]]|]).
    destruct H.
  - repeat (constructor; [apply S; lia|]). constructor.
  - repeat (constructor; [apply S; lia|]). constructor.
  - repeat (constructor; [split; [apply S; cbn; lia|unfold word; cbn; lia]|]). constructor.
  - repeat (constructor; [unfold nat_word; lia|]). constructor.
  - constructor; [|constructor]. split; [|split; [|unfold count_ok; cbn; lia]].
    + split; repeat constructor; unfold gap; cbn; lia.
    + intros r [<-|[<-|[]]]; cbn; lia.
  - constructor; [|constructor]. split; [|split; [|unfold count_ok; cbn; lia]].
    + split; repeat constructor; unfold gap; cbn; lia.
    + intros r [<-|[<-|[]]]; cbn; lia.
  - repeat (constructor; [split; [apply S; lia|split; [apply S; lia|
      first [exact Logic.I | unfold edge_ok, word; lia | split; [unfold nat_word; lia|cbn; lia]
            | split; [apply S; lia|split; [vm_compute; split; [discriminate|reflexivity]|unfold word; lia]]]]]|]). constructor.
  - repeat (constructor; [apply S; lia|]). constructor.
  - repeat (constructor; [cbn; unfold word; try lia; auto|]). constructor.
  - intros i r H. unfold kind_at in H. destruct (Z.ltb_spec i 0); [discriminate|].
    assert (i = 3 /\ r = 0) as [-> ->]; [|split; [unfold is_rule; cbn; lia|vm_compute; discriminate]].
    rewrite <- (Z2Nat.id i) by lia. revert H. generalize (Z.to_nat i). intros n H.
    do 16 (destruct n as [|n]; [cbn in H; try discriminate; injection H as <-; auto|]).
    destruct n; discriminate.
Qed.
Example C43_nonvacuous : Forall (fun c => 0 <= c) (4 :: repeat 7 20) /\ deserialize (4 :: repeat 7 20) = Panics /\
  length (map encode_word (words_of 8 0x596277843BE5417AB9EB8131A7286089)) = 8%nat /\
  In (number_of (map word_value (map encode_word (words_of 8 0x596277843BE5417AB9EB8131A7286089)))) known_uuids.
Proof. repeat split; try (vm_compute; auto; fail). repeat (constructor; [lia|]). constructor. Qed.
Example C43_wrap_nonvacuous : desc_ok (with_max example_desc (-1)).
Proof. destruct (proj2 C44_nonvacuous). constructor; auto. cbn. unfold word. lia. Qed.
