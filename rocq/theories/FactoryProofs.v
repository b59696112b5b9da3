From Coq Require Import ZArith List Bool Lia.
From Coq Require Import ZifyBool ZifyNat.
From Verif Require Import CharStreamModel CharStreamSpec CharStreamProofs FactoryModel FactorySpec.
Import ListNotations.
Local Open Scope Z_scope.

Lemma slice_text_piece l p i j : 0 <= i -> i <= j + 1 -> j < zlen l ->
  get_text slice_data (IStream l p) i j = Ok (piece l i j).
Proof.
  intros Hi Hij Hj. unfold get_text. cbn [data_raw d_offset d_slice d_slice_from slice_data]. cbv zeta.
  unfold slice_offset. cbv zeta. unfold zlen in *.
  destruct (j + 1 <? 0) eqn:E1; [lia|]. destruct (j + 1 >? _) eqn:E2; [lia|].
  unfold piece, slice_range, sub_list, zlen.
  destruct (j + 1 <? Z.of_nat (length l)) eqn:E3.
  - destruct ((0 <=? i) && (i <=? j + 1) && (j + 1 <=? Z.of_nat (length l))) eqn:E4; [reflexivity|lia].
  - destruct ((0 <=? i) && (i <=? Z.of_nat (length l)) && (Z.of_nat (length l) <=? Z.of_nat (length l))) eqn:E4; [|lia].
    do 2 f_equal. lia.
Qed.

(** The last byte of a character is followed by the next character. *)
Lemma str_offset_last cs k b : Forall valid_char cs -> (k < length cs)%nat ->
  byte_pos cs k <= b < byte_pos cs (S k) ->
  str_offset (encode_all cs) b 1 = Some (byte_pos cs (S k)).
Proof.
  intros Hv Hk Hb. unfold str_offset. cbn [Z.eqb].
  pose proof (byte_pos_mono1 cs Hv k Hk). pose proof (byte_pos_le_len cs Hv (S k) ltac:(lia)).
  pose proof (byte_pos_nonneg cs k). unfold zlen in *.
  change (Z.sgn 1) with 1.
  rewrite (loop_fwd_in cs Hv (Z.to_nat (byte_pos cs (S k) - b)) _ k) by (unfold zlen in *; lia).
  reflexivity.
Qed.

Lemma str_text_bytes cs p i j b : Forall valid_char cs -> (i <= j)%nat -> (j < length cs)%nat ->
  byte_pos cs j <= b < byte_pos cs (S j) ->
  get_text str_data (IStream (encode_all cs) p) (byte_pos cs i) b = Ok (encode_all (firstn (S j - i) (skipn i cs))).
Proof.
  intros Hv Hij Hj Hb. rewrite <- (str_get_text cs p i j Hv Hij Hj). unfold get_text.
  cbn [data_raw d_offset str_data].
  pose proof (byte_pos_mono1 cs Hv j Hj).
  rewrite (str_offset_last cs j b Hv Hj Hb), (str_offset_last cs j (byte_pos cs j) Hv Hj) by lia. reflexivity.
Qed.
