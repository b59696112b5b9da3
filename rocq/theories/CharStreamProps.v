(** Property theorems C06-C10: character streams. *)
From Coq Require Import ZArith List Bool Lia.
From Verif Require Import CharStreamModel CharStreamSpec CharStreamProofs.
Import ListNotations.
Open Scope Z_scope.

(** C06.  A stream over the symbols [l] after i <= n consume calls is at index i; la(k) is symbol
    i+k-1 (k >= 1) or i+k (k <= -1), EOF outside the text; consume is rejected exactly at the end. *)
Theorem C06_slice_window : forall (l : list Z) (i : nat), (i <= length l)%nat ->
  exists s, run slice_data (stream_new l) (repeat OpConsume i) = Ok s /\
    is_index s = Z.of_nat i /\ size s = zlen l /\
    (forall k, 1 <= k -> la slice_data s k = Ok (symbol_at l (Z.of_nat i + k - 1))) /\
    (forall k, 1 <= k -> la slice_data s (- k) = Ok (symbol_at l (Z.of_nat i - k))) /\
    (consume slice_data s = Panic <-> i = length l) /\
    (forall s', consume slice_data s = Ok s' -> is_index s' = Z.of_nat i + 1 /\ data_raw s' = l).
Proof.
  intros l i Hi. exists (IStream l (Z.of_nat i)).
  pose proof (slice_presents l) as HP.
  split; [apply (consume_n _ _ _ _ HP i 0); lia|]. split; [auto|]. split; [auto|].
  split; [|split; [|split]].
  - intros k Hk. rewrite (la_at _ _ _ _ HP) by lia. unfold la_spec.
    replace (0 <? k) with true by lia. auto.
  - intros k Hk. rewrite (la_at _ _ _ _ HP) by lia. unfold la_spec.
    replace (0 <? - k) with false by lia. do 2 f_equal. 
  - destruct (Nat.eq_dec i (length l)) as [->|Hne].
    + rewrite (consume_end _ _ _ _ HP). tauto.
    + rewrite (consume_at _ _ _ _ HP) by lia. split; [easy|lia].
  - intros s' H. destruct (Nat.eq_dec i (length l)) as [->|Hne].
    + rewrite (consume_end _ _ _ _ HP) in H. easy.
    + rewrite (consume_at _ _ _ _ HP) in H by lia. inversion H; cbn; split; [lia|auto].
Qed.
Print Assumptions C06_slice_window.

(** la(0) is rejected. *)
Theorem C06_la_zero_panics : forall D s, la D s 0 = Panic.
Proof. reflexivity. Qed.
Print Assumptions C06_la_zero_panics.

Example C06_nonvacuous :
  exists s, run slice_data (stream_new [10; 20; 30]) (repeat OpConsume 2) = Ok s /\
    la slice_data s 1 = Ok 30 /\ la slice_data s 2 = Ok EOF /\ la slice_data s (-2) = Ok 10 /\
    la slice_data s (-3) = Ok EOF.
Proof. eexists. vm_compute. repeat split. Qed.

(** C07.  A stream over the UTF-8 bytes of the characters [cs] after i consume calls sits on the
    byte offset of character i, which is a character boundary; lookahead counts characters. *)
Theorem C07_utf8_window : forall (cs : list Z) (i : nat), Forall valid_char cs -> (i <= length cs)%nat ->
  exists s, run str_data (stream_new (encode_all cs)) (repeat OpConsume i) = Ok s /\
    is_index s = zlen (encode_all (firstn i cs)) /\
    is_char_boundary (encode_all cs) (is_index s) = true /\
    (forall k, 1 <= k -> la str_data s k = Ok (symbol_at cs (Z.of_nat i + k - 1))) /\
    (forall k, 1 <= k -> la str_data s (- k) = Ok (symbol_at cs (Z.of_nat i - k))) /\
    (consume str_data s = Panic <-> i = length cs) /\
    (forall s', consume str_data s = Ok s' ->
        is_index s' = zlen (encode_all (firstn (S i) cs)) /\ la str_data s' (-1) = la str_data s 1).
Proof.
  intros cs i Hv Hi. exists (IStream (encode_all cs) (byte_pos cs i)).
  pose proof (str_presents cs Hv) as HP.
  split; [apply (consume_n _ _ _ _ HP i 0); lia|]. split; [auto|].
  split; [apply boundary_at; auto|].
  split; [|split; [|split]].
  - intros k Hk. rewrite (la_at _ _ _ _ HP) by lia. unfold la_spec.
    replace (0 <? k) with true by lia. auto.
  - intros k Hk. rewrite (la_at _ _ _ _ HP) by lia. unfold la_spec.
    replace (0 <? - k) with false by lia. do 2 f_equal.
  - destruct (Nat.eq_dec i (length cs)) as [->|Hne].
    + rewrite (consume_end _ _ _ _ HP). tauto.
    + rewrite (consume_at _ _ _ _ HP) by lia. split; [easy|lia].
  - intros s' H. destruct (Nat.eq_dec i (length cs)) as [->|Hne].
    + rewrite (consume_end _ _ _ _ HP) in H. easy.
    + rewrite (consume_at _ _ _ _ HP) in H by lia. inversion H; subst s'; clear H.
      split; [reflexivity|]. rewrite !(la_at _ _ _ _ HP) by lia. unfold la_spec. cbn [Z.ltb Z.compare].
      do 2 f_equal. lia.
Qed.
Print Assumptions C07_utf8_window.

(** The bounded search inside [offset] is exact: it never gives up early, whatever the arguments. *)
Theorem C07_offset_search_complete : forall l index d, d <> 0 ->
  str_offset_loop (S (S (length l))) l index d (Z.sgn d) <> OffFuel.
Proof. exact str_offset_loop_no_fuel. Qed.
Print Assumptions C07_offset_search_complete.

(* "V1は3": widths 1,1,3,1 *)
Example C07_nonvacuous :
  Forall valid_char [86; 49; 12399; 51] /\
  exists s, run str_data (stream_new (encode_all [86; 49; 12399; 51])) (repeat OpConsume 3) = Ok s /\
    is_index s = 5 /\ la str_data s (-1) = Ok 12399 /\ la str_data s 1 = Ok 51 /\ la str_data s 2 = Ok EOF.
Proof.
  split; [repeat constructor; unfold valid_char; lia|]. eexists. vm_compute. repeat split.
Qed.

(** C08.  get_text(start, stop) is the inclusive slice. *)
Theorem C08_slice_text : forall (l : list Z) (p : Z) (i j : nat), (i <= j)%nat -> (j < length l)%nat ->
  get_text slice_data (IStream l p) (Z.of_nat i) (Z.of_nat j) = Ok (firstn (S j - i) (skipn i l)).
Proof. exact slice_get_text. Qed.
Print Assumptions C08_slice_text.

Theorem C08_utf8_text : forall (cs : list Z) (p : Z) (i j : nat),
  Forall valid_char cs -> (i <= j)%nat -> (j < length cs)%nat ->
  get_text str_data (IStream (encode_all cs) p) (byte_pos cs i) (byte_pos cs j) =
  Ok (encode_all (firstn (S j - i) (skipn i cs))).
Proof. exact str_get_text. Qed.
Print Assumptions C08_utf8_text.

(** Adjacent extractions concatenate to the extraction of the union. *)
Theorem C08_adjacent_concat : forall (cs : list Z) (p : Z) (i j k : nat),
  Forall valid_char cs -> (i <= j)%nat -> (j < k)%nat -> (k < length cs)%nat ->
  exists a b, get_text str_data (IStream (encode_all cs) p) (byte_pos cs i) (byte_pos cs j) = Ok a /\
    get_text str_data (IStream (encode_all cs) p) (byte_pos cs (S j)) (byte_pos cs k) = Ok b /\
    get_text str_data (IStream (encode_all cs) p) (byte_pos cs i) (byte_pos cs k) = Ok (a ++ b).
Proof.
  intros cs p i j k Hv Hij Hjk Hk. rewrite !str_get_text by (auto; lia).
  eexists _, _. split; [reflexivity|]. split; [reflexivity|]. f_equal.
  rewrite <- encode_all_app. f_equal.
  replace (S k - i)%nat with ((S j - i) + (S k - S j))%nat by lia.
  replace (skipn (S j) cs) with (skipn (S j - i) (skipn i cs)) by (rewrite skipn_skipn'; f_equal; lia).
  generalize (skipn i cs) as l. intros l. generalize (S j - i)%nat as a, (S k - S j)%nat as b.
  clear. intros a b. revert l. induction a as [|a IH]; intros l; [reflexivity|].
  destruct l as [|x l]; [cbn; rewrite firstn_nil; reflexivity|].
  cbn [Nat.add firstn skipn app]. f_equal. apply IH.
Qed.
Print Assumptions C08_adjacent_concat.

(** Stopping anywhere at or after the last character returns the rest of the text (the lexer asks for
    stop = index - 1 and EOF tokens may carry stop >= len). *)
Theorem C08_slice_text_clamped : forall (l : list Z) (p : Z) (i : nat) (stop : Z),
  (i <= length l)%nat -> zlen l <= stop + 1 ->
  get_text slice_data (IStream l p) (Z.of_nat i) stop = Ok (skipn i l).
Proof.
  intros l p i stop Hi Hs. unfold get_text; cbn [data_raw d_offset d_slice d_slice_from slice_data]. cbv zeta.
  assert (Hstop : zlen l <= match slice_offset l stop 1 with Some x => x | None => stop end).
  { unfold slice_offset. cbv zeta. unfold zlen in *.
    destruct (stop + 1 <? 0) eqn:E1; [lia|]. destruct (stop + 1 >? _) eqn:E2; lia. }
  destruct (_ <? zlen l) eqn:E; [lia|]. unfold slice_range, zlen in *.
  destruct (_ && _) eqn:E1; [|lia]. f_equal. unfold sub_list. rewrite Nat2Z.id.
  apply firstn_all2. rewrite skipn_length. lia.
Qed.
Print Assumptions C08_slice_text_clamped.

Example C08_nonvacuous :
  get_text str_data (IStream (encode_all [86; 49; 12399; 51]) 0)
     (byte_pos [86; 49; 12399; 51] 1) (byte_pos [86; 49; 12399; 51] 2) = Ok (encode_all [49; 12399]).
Proof. reflexivity. Qed.

(** C09.  Whatever happened between, seek to an index observed earlier restores the complete stream
    state (so every later observation is the same); the text never changes.  For both data kinds. *)
Theorem C09_seek_restores : forall D raw ops1 ops2 s1 s2,
  run D (stream_new raw) ops1 = Ok s1 -> run D s1 ops2 = Ok s2 ->
  seek s2 (is_index s1) = s1 /\ data_raw s2 = raw /\
  (forall k, la D (seek s2 (is_index s1)) k = la D s1 k) /\
  (forall a b, get_text D s2 a b = get_text D s1 a b).
Proof.
  intros D raw ops1 ops2 s1 s2 H1 H2. pose proof (run_data _ _ _ _ H1) as E1.
  pose proof (run_data _ _ _ _ H2) as E2. cbn in E1.
  assert (Hs : seek s2 (is_index s1) = s1) by (unfold seek; rewrite E2; destruct s1; auto).
  split; [auto|]. split; [congruence|]. split; [intros; rewrite Hs; auto|].
  intros. unfold get_text. rewrite E2. auto.
Qed.
Print Assumptions C09_seek_restores.

(** Lookahead, mark and release leave the stream exactly as it was. *)
Theorem C09_observers_do_not_move : forall D s o s',
  (match o with OpLa _ | OpMark | OpRelease _ => True | _ => False end) ->
  step D s o = Ok s' -> s' = s.
Proof.
  intros D s [| k | | m | i |] s' Hk H; try easy; cbn in H.
  - destruct (la D s k); cbn in H; inversion H; auto.
  - inversion H; auto.
  - inversion H; auto.
Qed.
Print Assumptions C09_observers_do_not_move.

Example C09_nonvacuous :
  exists s1 s2, run slice_data (stream_new [1;2;3]) [OpConsume; OpMark; OpLa 2] = Ok s1 /\
    run slice_data s1 [OpConsume; OpConsume; OpSeek 0; OpLa (-1)] = Ok s2 /\ s1 <> s2.
Proof. eexists _, _. vm_compute. repeat split. congruence. Qed.

(** C10 is false: the iterator calls consume() even at EOF, so on every text the call that should
    return None panics instead. *)
Theorem C10_iteration_ends_refuted : forall l s xs,
  iter_take slice_data (length l) (stream_new l) = Ok (s, xs) -> 
  Forall (fun c => c <> EOF) l ->
  iter_next slice_data s = Panic.
Proof.
  intros l s xs H HF. pose proof (iter_take_all _ _ _ _ (slice_presents l) (length l) 0 eq_refl HF) as H'.
  unfold stream_new in H. cbn [Z.of_nat] in H'. rewrite H in H'. inversion H'; subst.
  apply (iter_next_end _ _ _ _ (slice_presents l)).
Qed.
Print Assumptions C10_iteration_ends_refuted.

Theorem C10_utf8_iteration_ends_refuted : exists cs, Forall valid_char cs /\
  iter_take str_data (S (length cs)) (stream_new (encode_all cs)) = Panic.
Proof. exists [65; 233]. split; [repeat constructor; unfold valid_char; lia|reflexivity]. Qed.
Print Assumptions C10_utf8_iteration_ends_refuted.

(** What does hold: from any position, the remaining symbols are yielded once each, in order. *)
Theorem C10_iteration_symbols_partial : forall (l : list Z) (i : nat), (i <= length l)%nat ->
  Forall (fun c => c <> EOF) l ->
  iter_take slice_data (length l - i) (IStream l (Z.of_nat i)) =
    Ok (IStream l (zlen l), map Some (skipn i l)).
Proof.
  intros l i Hi HF. apply (iter_take_all _ _ _ _ (slice_presents l)); auto. lia.
Qed.
Print Assumptions C10_iteration_symbols_partial.

Theorem C10_utf8_iteration_symbols_partial : forall (cs : list Z), Forall valid_char cs ->
  iter_take str_data (length cs) (stream_new (encode_all cs)) =
    Ok (IStream (encode_all cs) (zlen (encode_all cs)), map Some cs).
Proof.
  intros cs Hv. pose proof (iter_take_all _ _ _ _ (str_presents cs Hv) (length cs) 0 eq_refl) as H.
  rewrite (byte_pos_n cs) in H. apply H.
  eapply Forall_impl; [|exact Hv]. intros c [Hc _]. unfold EOF. lia.
Qed.
Print Assumptions C10_utf8_iteration_symbols_partial.

Example C10_nonvacuous : exists s xs,
  iter_take slice_data 3 (stream_new [7;8;9]) = Ok (s, xs) /\ xs = [Some 7; Some 8; Some 9].
Proof. eexists _, _. vm_compute. split; reflexivity. Qed.
