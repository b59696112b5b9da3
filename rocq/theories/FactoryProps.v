(** C67: token creation. *)
From Coq Require Import ZArith List Bool Lia.
From Coq Require Import ZifyBool ZifyNat.
From Verif Require Import CharStreamModel CharStreamSpec CharStreamProofs FactoryModel FactorySpec FactoryProofs.
Import ListNotations.
Local Open Scope Z_scope.

(** Explicitly supplied text wins, whatever the source and the positions. *)
Theorem C67_supplied_text : forall D source ty s ch a b ln col, exists t,
  create D source ty (Some s) ch a b ln col = Ok t /\ records t ty ch a b ln col s.
Proof. intros. eexists. split; [reflexivity|]. repeat split. Qed.
Print Assumptions C67_supplied_text.

(** Otherwise a token from inside the input has the input's text, over vectors of code points ... *)
Theorem C67_input_slice : forall l p ty ch a b ln col, 0 <= a -> a <= b + 1 -> a < zlen l -> b < zlen l -> exists t,
  create slice_data (Some (IStream l p)) ty None ch a b ln col = Ok t /\ records t ty ch a b ln col (piece l a b).
Proof.
  intros l p ty ch a b ln col Ha Hab Hal Hb. unfold create, size. cbn [data_raw].
  destruct ((b >=? zlen l) || (a >=? zlen l)) eqn:E; [lia|].
  rewrite slice_text_piece by lia. eexists. split; [reflexivity|]. repeat split.
Qed.
Print Assumptions C67_input_slice.

(** ... and over UTF-8 strings, where the stop position may be any byte of the last character. *)
Theorem C67_utf8_slice : forall cs p ty ch (i j : nat) b ln col,
  Forall valid_char cs -> (i <= j)%nat -> (j < length cs)%nat -> byte_pos cs j <= b < byte_pos cs (S j) -> exists t,
  create str_data (Some (IStream (encode_all cs) p)) ty None ch (byte_pos cs i) b ln col = Ok t /\
  records t ty ch (byte_pos cs i) b ln col (encode_all (firstn (S j - i) (skipn i cs))).
Proof.
  intros cs p ty ch i j b ln col Hv Hij Hj Hb. unfold create, size. cbn [data_raw].
  pose proof (byte_pos_le_len cs Hv (S j) ltac:(lia)).
  assert (Hle : byte_pos cs i <= byte_pos cs j).
  { destruct (Nat.eq_dec i j) as [->|]; [lia|]. pose proof (byte_pos_mono cs Hv i j ltac:(lia)). lia. }
  destruct ((b >=? zlen (encode_all cs)) || (byte_pos cs i >=? zlen (encode_all cs))) eqn:E; [lia|].
  rewrite (str_text_bytes cs p i j b Hv Hij Hj Hb). eexists. split; [reflexivity|]. repeat split.
Qed.
Print Assumptions C67_utf8_slice.

(** Positions at or beyond the end of the input give <EOF>, and no source and no text the empty text. *)
Theorem C67_beyond_input : forall D x ty ch a b ln col, zlen (data_raw x) <= a \/ zlen (data_raw x) <= b -> exists t,
  create D (Some x) ty None ch a b ln col = Ok t /\ records t ty ch a b ln col eof_text.
Proof.
  intros D x ty ch a b ln col H. unfold create, size.
  destruct ((b >=? zlen (data_raw x)) || (a >=? zlen (data_raw x))) eqn:E; [|lia].
  eexists. split; [reflexivity|]. repeat split.
Qed.
Print Assumptions C67_beyond_input.

Theorem C67_no_source : forall D ty ch a b ln col, exists t,
  create D None ty None ch a b ln col = Ok t /\ records t ty ch a b ln col [].
Proof. intros. eexists. split; [reflexivity|]. repeat split. Qed.
Print Assumptions C67_no_source.

(** An end-of-input token shows <EOF> whatever text it was given. *)
Theorem C67_eof_text : forall D source ty s ch a b ln col t,
  create D source ty s ch a b ln col = Ok t ->
  token_get_text t = if ty =? -1 then eof_text else tk_text t.
Proof.
  intros D source ty s ch a b ln col t H. unfold create in H.
  destruct (match s, source with
            | Some t0, _ => Ok t0
            | None, Some x => if (b >=? size x) || (a >=? size x) then Ok eof_text else get_text D x a b
            | None, None => Ok []
            end) as [u|]; cbn in H; [|discriminate].
  injection H as <-. reflexivity.
Qed.
Print Assumptions C67_eof_text.

(** Negative start positions are refused by a panic. *)
Theorem C67_negative_start_panics : forall l p ty ch a b ln col, a < 0 -> b < zlen l -> a < zlen l ->
  create slice_data (Some (IStream l p)) ty None ch a b ln col = Panic.
Proof.
  intros l p ty ch a b ln col Ha Hb Hl. unfold create, size. cbn [data_raw].
  destruct ((b >=? zlen l) || (a >=? zlen l)) eqn:E; [lia|].
  unfold get_text. cbn [data_raw d_offset d_slice d_slice_from slice_data]. cbv zeta. unfold slice_range.
  destruct (_ <? zlen l); destruct (_ && _) eqn:E1; try lia; reflexivity.
Qed.
Print Assumptions C67_negative_start_panics.

(* "aは" : the second character is bytes 1..=3 *)
Example C67_nonvacuous : Forall valid_char [97; 12399] /\ byte_pos [97; 12399] 1 <= 3 < byte_pos [97; 12399] 2 /\
  create str_data (Some (IStream (encode_all [97; 12399]) 4)) 5 None 0 1 3 1 1
  = Ok (Token 5 0 1 3 (-1) 1 1 (encode_all [12399]) false) /\
  create slice_data (Some (IStream [97; 98; 99] 3)) 5 None 0 1 2 1 1 = Ok (Token 5 0 1 2 (-1) 1 1 [98; 99] false).
Proof.
  split; [repeat constructor; unfold valid_char; lia|]. split; [vm_compute; split; congruence|].
  split; vm_compute; reflexivity.
Qed.
