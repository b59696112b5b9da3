(** Proofs about character streams: both data kinds satisfy one positional specification. *)
From Coq Require Import ZArith List Bool Lia.
From Coq Require Import ZifyBool ZifyNat.
From Verif Require Import CharStreamModel CharStreamSpec.
Import ListNotations.
Open Scope Z_scope.

(** [D] on raw data [raw] presents the symbols [cs]; symbol k sits at raw position [pos k]. *)
Record presents (D : input_data) (raw cs : list Z) (pos : nat -> Z) : Prop := {
  pr_pos0 : pos 0%nat = 0;
  pr_len : pos (length cs) = zlen raw;
  pr_mono : forall i j, (i < j <= length cs)%nat -> pos i < pos j;
  pr_offset : forall k d, (k <= length cs)%nat ->
     d_offset D raw (pos k) d =
     if (0 <=? Z.of_nat k + d) && (Z.of_nat k + d <=? zlen cs)
     then Some (pos (Z.to_nat (Z.of_nat k + d))) else None;
  pr_item : forall k, (k <= length cs)%nat -> d_item D raw (pos k) = nth_error cs k;
}.

Lemma zget_nth : forall {A} (l : list A) k, zget l (Z.of_nat k) = nth_error l k.
Proof. intros. unfold zget. destruct (Z.of_nat k <? 0) eqn:E; [lia|]. rewrite Nat2Z.id. auto. Qed.

Lemma zget_neg : forall {A} (l : list A) i, i < 0 -> zget l i = None.
Proof. intros. unfold zget. destruct (i <? 0) eqn:E; auto; lia. Qed.

Lemma zget_ge : forall {A} (l : list A) i, zlen l <= i -> zget l i = None.
Proof.
  intros. unfold zget, zlen in *. destruct (i <? 0) eqn:E; auto. apply nth_error_None. lia.
Qed.

Section Generic.
  Variable D : input_data.
  Variables raw cs : list Z.
  Variable pos : nat -> Z.
  Hypothesis HP : presents D raw cs pos.

  Lemma la_at : forall k o, (k <= length cs)%nat -> o <> 0 ->
    la D (IStream raw (pos k)) o = Ok (la_spec cs (Z.of_nat k) o).
  Proof.
    intros k o Hk Ho. unfold la; cbn [data_raw is_index].
    destruct (o =? 1) eqn:E1.
    { rewrite (pr_item _ _ _ _ HP) by auto. unfold la_spec, symbol_at.
      replace (0 <? o) with true by lia. replace (Z.of_nat k + o - 1) with (Z.of_nat k) by lia.
      rewrite zget_nth. auto. }
    destruct (o =? 0) eqn:E0; [lia|]. f_equal. cbv zeta.
    set (d := (if o <? 0 then o + 1 else o) - 1).
    rewrite (pr_offset _ _ _ _ HP) by auto. unfold la_spec, symbol_at.
    assert (Hd : (if 0 <? o then Z.of_nat k + o - 1 else Z.of_nat k + o) = Z.of_nat k + d).
    { subst d. destruct (o <? 0) eqn:E; destruct (0 <? o) eqn:E'; lia. }
    replace (if 0 <? o then match zget cs (Z.of_nat k + o - 1) with Some c => c | None => EOF end
             else match zget cs (Z.of_nat k + o) with Some c => c | None => EOF end)
      with (match zget cs (Z.of_nat k + d) with Some c => c | None => EOF end)
      by (rewrite <- Hd; destruct (0 <? o); auto).
    destruct ((0 <=? Z.of_nat k + d) && (Z.of_nat k + d <=? zlen cs)) eqn:E.
    - unfold zlen in E. rewrite (pr_item _ _ _ _ HP) by lia.
      replace (Z.of_nat k + d) with (Z.of_nat (Z.to_nat (Z.of_nat k + d))) at 2 by lia.
      rewrite zget_nth. auto.
    - destruct (Z_lt_le_dec (Z.of_nat k + d) 0); [rewrite zget_neg|rewrite zget_ge]; auto. lia.
  Qed.

  Lemma consume_at : forall k, (k < length cs)%nat ->
    consume D (IStream raw (pos k)) = Ok (IStream raw (pos (S k))).
  Proof.
    intros k Hk. unfold consume; cbn [data_raw is_index]. rewrite (pr_offset _ _ _ _ HP) by lia.
    unfold zlen. destruct (_ && _) eqn:E; [|lia]. do 3 f_equal. lia.
  Qed.

  Lemma consume_end : consume D (IStream raw (pos (length cs))) = Panic.
  Proof.
    unfold consume; cbn [data_raw is_index]. rewrite (pr_offset _ _ _ _ HP) by lia.
    unfold zlen. destruct (_ && _) eqn:E; [lia|]. auto.
  Qed.

  Lemma iter_next_at : forall k c, nth_error cs k = Some c -> c <> EOF ->
    iter_next D (IStream raw (pos k)) = Ok (IStream raw (pos (S k)), Some c).
  Proof.
    intros k c Hc Hne. assert (Hk : (k < length cs)%nat) by (apply nth_error_Some; congruence).
    unfold iter_next. rewrite la_at by lia. cbn [bind]. rewrite consume_at by auto. cbn [bind].
    unfold la_spec, symbol_at. cbn [Z.ltb Z.compare]. replace (Z.of_nat k + 1 - 1) with (Z.of_nat k) by lia.
    rewrite zget_nth, Hc. destruct (c =? EOF) eqn:E; auto; lia.
  Qed.

  Lemma iter_take_all : forall n k, (k + n = length cs)%nat -> Forall (fun c => c <> EOF) cs ->
    iter_take D n (IStream raw (pos k)) =
    Ok (IStream raw (pos (length cs)), map Some (skipn k cs)).
  Proof.
    induction n as [|n IH]; intros k Hk HF; cbn [iter_take].
    - rewrite skipn_all2 by lia. replace k with (length cs) by lia. auto.
    - destruct (nth_error cs k) as [c|] eqn:E; [|apply nth_error_None in E; lia].
      rewrite (iter_next_at k c E).
      + cbn [bind]. rewrite IH by (auto; lia). cbn [bind].
        assert (Hs : skipn k cs = c :: skipn (S k) cs).
        { clear - E. revert k E. induction cs as [|x l IHl]; intros [|k] E; try easy.
          - cbn in E. inversion E; auto.
          - cbn [skipn]. apply IHl; auto. }
        rewrite Hs. auto.
      + rewrite Forall_forall in HF. apply HF. eapply nth_error_In; eauto.
  Qed.

  Lemma iter_next_end : iter_next D (IStream raw (pos (length cs))) = Panic.
  Proof. unfold iter_next. rewrite la_at by lia. cbn [bind]. rewrite consume_end. auto. Qed.

  Lemma consume_n : forall n k, (k + n <= length cs)%nat ->
    run D (IStream raw (pos k)) (repeat OpConsume n) = Ok (IStream raw (pos (k + n))).
  Proof.
    induction n as [|n IH]; intros k Hk; cbn [repeat run].
    - rewrite Nat.add_0_r. auto.
    - cbn [step]. rewrite consume_at by lia. cbn [bind]. rewrite IH by lia. do 3 f_equal. lia.
  Qed.
End Generic.

(** ** Slices *)
Lemma slice_presents : forall l, presents slice_data l l Z.of_nat.
Proof.
  intros l. constructor; auto.
  - intros; lia.
  - intros k d Hk. cbn [d_offset slice_data]. unfold slice_offset.
    destruct (Z.of_nat k + d <? 0) eqn:E1; destruct (Z.of_nat k + d >? zlen l) eqn:E2;
      destruct ((0 <=? Z.of_nat k + d) && (Z.of_nat k + d <=? zlen l)) eqn:E3; try lia; auto.
    f_equal. lia.
  - intros k Hk. cbn [d_item slice_data]. unfold slice_item. apply zget_nth.
Qed.

(** ** UTF-8 *)
Lemma encode_cases : forall c, valid_char c ->
  (c < 128 /\ encode c = [c]) \/
  (exists x y, encode c = [x; y] /\ 192 <= x < 224 /\ 128 <= y < 192 /\
     c = (x mod 32) * 64 + y mod 64) \/
  (exists x y z, encode c = [x; y; z] /\ 224 <= x < 240 /\ 128 <= y < 192 /\ 128 <= z < 192 /\
     c = (x mod 32) * 4096 + (y mod 64) * 64 + z mod 64) \/
  (exists x y z w, encode c = [x; y; z; w] /\ 240 <= x < 248 /\ 128 <= y < 192 /\ 128 <= z < 192 /\ 128 <= w < 192 /\
     c = (x mod 8) * 262144 + (y mod 64) * 4096 + (z mod 64) * 64 + w mod 64).
Proof.
  intros c [Hc _]. unfold encode.
  destruct (c <? 128) eqn:E1; [left; split; [lia|auto]|].
  destruct (c <? 2048) eqn:E2.
  { right; left. eexists _, _. split; [reflexivity|]. Z.div_mod_to_equations; lia. }
  destruct (c <? 65536) eqn:E3.
  { right; right; left. eexists _, _, _. split; [reflexivity|]. Z.div_mod_to_equations; lia. }
  right; right; right. eexists _, _, _, _. split; [reflexivity|]. Z.div_mod_to_equations; lia.
Qed.

Lemma encode_shape : forall c, valid_char c -> exists b tl, encode c = b :: tl /\
  (0 <= b < 128 \/ 192 <= b) /\ Forall (fun y => 128 <= y < 192) tl.
Proof.
  intros c Hc. pose proof Hc as [Hr _].
  destruct (encode_cases c Hc) as [[H E]|[(x & y & E & H)|[(x & y & z & E & H)|(x & y & z & w & E & H)]]];
    rewrite E; eexists _, _; (split; [reflexivity|]); (split; [lia|]); repeat constructor; lia.
Qed.

Lemma decode_encode : forall c rest, valid_char c -> next_code_point (encode c ++ rest) = Some c.
Proof.
  intros c rest Hc. pose proof Hc as [Hr _].
  destruct (encode_cases c Hc) as [[H E]|[(x & y & E & H)|[(x & y & z & E & H)|(x & y & z & w & E & H)]]];
    rewrite E; cbn [app next_code_point].
  - replace (c <? 128) with true by lia. auto.
  - replace (x <? 128) with false by lia. replace (x <? 224) with true by lia. f_equal; symmetry; apply H.
  - replace (x <? 128) with false by lia. replace (x <? 224) with false by lia.
    replace (x <? 240) with true by lia. f_equal; symmetry; apply H.
  - replace (x <? 128) with false by lia. replace (x <? 224) with false by lia.
    replace (x <? 240) with false by lia. f_equal; symmetry; apply H.
Qed.

Definition boundary_byte (b : Z) : bool := (b <? 128) || (192 <=? b).

Lemma encode_all_app : forall a b, encode_all (a ++ b) = encode_all a ++ encode_all b.
Proof. intros. unfold encode_all. apply flat_map_app. Qed.

Lemma zlen_app : forall {A} (a b : list A), zlen (a ++ b) = zlen a + zlen b.
Proof. intros; unfold zlen. rewrite app_length. lia. Qed.

Lemma byte_pos_split : forall cs k, (k <= length cs)%nat ->
  encode_all cs = encode_all (firstn k cs) ++ encode_all (skipn k cs).
Proof. intros. rewrite <- encode_all_app, firstn_skipn. auto. Qed.

Lemma firstn_S_nth : forall {A} (l : list A) k c, nth_error l k = Some c ->
  firstn (S k) l = firstn k l ++ [c].
Proof.
  induction l as [|x l IH]; intros [|k] c H; cbn in H; try easy.
  - inversion H; auto.
  - cbn [firstn app]. rewrite <- IH; auto.
Qed.

Lemma skipn_nth_cons : forall {A} (l : list A) k c, nth_error l k = Some c ->
  skipn k l = c :: skipn (S k) l.
Proof.
  induction l as [|x l IH]; intros [|k] c H; cbn in H; try easy.
  - inversion H; auto.
  - cbn [skipn]. apply IH; auto.
Qed.

Lemma byte_pos_S : forall cs k c, nth_error cs k = Some c ->
  byte_pos cs (S k) = byte_pos cs k + zlen (encode c).
Proof.
  intros. unfold byte_pos. rewrite (firstn_S_nth _ _ _ H), encode_all_app, zlen_app.
  unfold encode_all at 2. cbn [flat_map]. rewrite app_nil_r. auto.
Qed.

Lemma encode_len : forall c, valid_char c -> 1 <= zlen (encode c).
Proof. intros c Hc. destruct (encode_shape c Hc) as (b & tl & E & _). rewrite E. unfold zlen; cbn; lia. Qed.

Section Str.
  Variable cs : list Z.
  Hypothesis Hv : Forall valid_char cs.
  Let raw := encode_all cs.
  Let n := length cs.

  Lemma valid_nth : forall k c, nth_error cs k = Some c -> valid_char c.
  Proof. intros k c H. rewrite Forall_forall in Hv. apply Hv. eapply nth_error_In; eauto. Qed.

  Lemma byte_pos_0 : byte_pos cs 0 = 0.
  Proof. reflexivity. Qed.

  Lemma byte_pos_n : byte_pos cs n = zlen raw.
  Proof. unfold byte_pos, n. rewrite firstn_all. auto. Qed.

  Lemma byte_pos_mono1 : forall k, (k < n)%nat -> byte_pos cs k < byte_pos cs (S k).
  Proof.
    intros k Hk. destruct (nth_error cs k) as [c|] eqn:E; [|apply nth_error_None in E; unfold n in Hk; lia].
    rewrite (byte_pos_S _ _ _ E). pose proof (encode_len c (valid_nth _ _ E)). lia.
  Qed.

  Lemma byte_pos_mono : forall i j, (i < j <= n)%nat -> byte_pos cs i < byte_pos cs j.
  Proof.
    intros i j Hij. induction j as [|j IH]; [lia|].
    destruct (Nat.eq_dec i j) as [->|Hne].
    - apply byte_pos_mono1; lia.
    - pose proof (byte_pos_mono1 j). lia.
  Qed.

  Lemma byte_pos_nonneg : forall k, 0 <= byte_pos cs k.
  Proof. intros; unfold byte_pos, zlen; lia. Qed.

  Lemma byte_pos_le_len : forall k, (k <= n)%nat -> byte_pos cs k <= zlen raw.
  Proof.
    intros k Hk. rewrite <- byte_pos_n. destruct (Nat.eq_dec k n) as [->|]; [lia|].
    pose proof (byte_pos_mono k n). lia.
  Qed.

  Lemma raw_at : forall k c j, nth_error cs k = Some c -> 0 <= j < zlen (encode c) ->
    zget raw (byte_pos cs k + j) = zget (encode c) j.
  Proof.
    intros k c j Hk Hj.
    assert (Hs : raw = encode_all (firstn k cs) ++ encode c ++ encode_all (skipn (S k) cs)).
    { unfold raw. rewrite (byte_pos_split cs k) at 1.
      - rewrite (skipn_nth_cons _ _ _ Hk). reflexivity.
      - assert (nth_error cs k <> None) by congruence. apply nth_error_Some in H. lia. }
    rewrite Hs. unfold zget, byte_pos, zlen in *.
    destruct (Z.of_nat _ + j <? 0) eqn:E1; [lia|]. destruct (j <? 0) eqn:E2; [lia|].
    rewrite nth_error_app2 by lia. rewrite nth_error_app1 by lia. f_equal. lia.
  Qed.

  (** Boundary test at and inside a character. *)
  Lemma boundary_at : forall k, (k <= n)%nat -> is_char_boundary raw (byte_pos cs k) = true.
  Proof.
    intros k Hk. unfold is_char_boundary. destruct (byte_pos cs k =? 0); auto.
    destruct (byte_pos cs k =? zlen raw) eqn:E; auto.
    assert (k <> n) by (intros ->; rewrite byte_pos_n in E; lia).
    destruct (nth_error cs k) as [c|] eqn:Ec; [|apply nth_error_None in Ec; unfold n in *; lia].
    pose proof (valid_nth _ _ Ec) as Hc. pose proof (encode_len c Hc).
    replace (byte_pos cs k) with (byte_pos cs k + 0) by lia. rewrite (raw_at _ _ _ Ec) by lia.
    destruct (encode_shape c Hc) as (b & tl & Eb & Hb & _). rewrite Eb. cbn. lia.
  Qed.

  Lemma boundary_inside : forall k j, (k < n)%nat -> byte_pos cs k < j < byte_pos cs (S k) ->
    is_char_boundary raw j = false.
  Proof.
    intros k j Hk Hj. unfold is_char_boundary.
    pose proof (byte_pos_nonneg k). pose proof (byte_pos_le_len (S k) ltac:(lia)).
    destruct (j =? 0) eqn:E0; [lia|]. destruct (j =? zlen raw) eqn:E1; [lia|].
    destruct (nth_error cs k) as [c|] eqn:Ec; [|apply nth_error_None in Ec; unfold n in *; lia].
    pose proof (valid_nth _ _ Ec) as Hc. rewrite (byte_pos_S _ _ _ Ec) in Hj.
    replace j with (byte_pos cs k + (j - byte_pos cs k)) by lia. rewrite (raw_at _ _ _ Ec) by lia.
    destruct (encode_shape c Hc) as (b & tl & Eb & _ & Htl). rewrite Eb in *.
    unfold zget. destruct (j - byte_pos cs k <? 0) eqn:E2; [lia|].
    destruct (Z.to_nat (j - byte_pos cs k)) as [|m] eqn:Em; [lia|]. cbn [nth_error].
    destruct (nth_error tl m) as [y|] eqn:Ey; auto.
    rewrite Forall_forall in Htl. apply nth_error_In in Ey. specialize (Htl _ Ey). lia.
  Qed.

  (** One item forward / backward takes the loop from a boundary to the neighbouring one. *)
  Lemma loop_fwd_in : forall m fuel k j d, (k < n)%nat -> d > 0 ->
    byte_pos cs k <= j < byte_pos cs (S k) -> m = Z.to_nat (byte_pos cs (S k) - j) -> (m <= fuel)%nat ->
    str_offset_loop fuel raw j d 1 =
    if d - 1 =? 0 then OffSome (byte_pos cs (S k))
    else str_offset_loop (fuel - m) raw (byte_pos cs (S k)) (d - 1) 1.
  Proof.
    induction m as [|m IH]; intros fuel k j d Hk Hd Hj Hm Hf; [lia|].
    destruct fuel as [|fuel]; [lia|]. cbn [str_offset_loop]. cbv zeta.
    pose proof (byte_pos_nonneg k). pose proof (byte_pos_le_len (S k) ltac:(lia)).
    destruct ((j + 1 <? 0) || (j + 1 >? zlen raw)) eqn:E1; [lia|].
    destruct (Z.eq_dec (j + 1) (byte_pos cs (S k))) as [Ej|Ej].
    - rewrite Ej, boundary_at by lia.
      replace (S fuel - S m)%nat with fuel by lia. destruct (d - 1 =? 0); auto.
    - rewrite (boundary_inside k) by lia. destruct (d =? 0) eqn:E2; [lia|].
      rewrite (IH fuel k) by lia. replace (S fuel - S m)%nat with (fuel - m)%nat by lia. auto.
  Qed.

  Lemma loop_bwd_in : forall m fuel k j d, (k < n)%nat -> d < 0 ->
    byte_pos cs k < j <= byte_pos cs (S k) -> m = Z.to_nat (j - byte_pos cs k) -> (m <= fuel)%nat ->
    str_offset_loop fuel raw j d (-1) =
    if d + 1 =? 0 then OffSome (byte_pos cs k)
    else str_offset_loop (fuel - m) raw (byte_pos cs k) (d + 1) (-1).
  Proof.
    induction m as [|m IH]; intros fuel k j d Hk Hd Hj Hm Hf; [lia|].
    destruct fuel as [|fuel]; [lia|]. cbn [str_offset_loop]. cbv zeta.
    pose proof (byte_pos_nonneg k). pose proof (byte_pos_le_len (S k) ltac:(lia)).
    destruct ((j + -1 <? 0) || (j + -1 >? zlen raw)) eqn:E1; [lia|].
    destruct (Z.eq_dec (j - 1) (byte_pos cs k)) as [Ej|Ej].
    - replace (j + -1) with (byte_pos cs k) by lia. rewrite boundary_at by lia.
      replace (d - -1) with (d + 1) by lia.
      replace (S fuel - S m)%nat with fuel by lia. destruct (d + 1 =? 0); auto.
    - rewrite (boundary_inside k) by lia. destruct (d =? 0) eqn:E2; [lia|].
      rewrite (IH fuel k) by lia. replace (S fuel - S m)%nat with (fuel - m)%nat by lia. auto.
  Qed.

  Lemma loop_fwd : forall m fuel k d, m = Z.to_nat d -> d > 0 -> (k <= n)%nat ->
    zlen raw - byte_pos cs k < Z.of_nat fuel ->
    str_offset_loop fuel raw (byte_pos cs k) d 1 =
    if Z.of_nat k + d <=? Z.of_nat n then OffSome (byte_pos cs (Z.to_nat (Z.of_nat k + d))) else OffNone.
  Proof.
    induction m as [|m IH]; intros fuel k d Hm Hd Hk Hf; [lia|].
    destruct (Nat.eq_dec k n) as [->|Hne].
    - rewrite byte_pos_n in *. destruct fuel as [|fuel]; [lia|]. cbn [str_offset_loop]. cbv zeta.
      destruct ((zlen raw + 1 <? 0) || (zlen raw + 1 >? zlen raw)) eqn:E1; [|lia].
      destruct (Z.of_nat n + d <=? Z.of_nat n) eqn:E2; auto; lia.
    - pose proof (byte_pos_mono1 k ltac:(lia)). pose proof (byte_pos_le_len (S k) ltac:(lia)).
      rewrite (loop_fwd_in (Z.to_nat (byte_pos cs (S k) - byte_pos cs k)) fuel k) by lia.
      destruct (d - 1 =? 0) eqn:Ed.
      + destruct (Z.of_nat k + d <=? Z.of_nat n) eqn:E2; [|lia]. do 2 f_equal. lia.
      + rewrite (IH _ (S k) (d - 1)) by lia.
        replace (Z.of_nat (S k) + (d - 1)) with (Z.of_nat k + d) by lia. auto.
  Qed.

  Lemma loop_bwd : forall m fuel k d, m = Z.to_nat (- d) -> d < 0 -> (k <= n)%nat ->
    byte_pos cs k < Z.of_nat fuel ->
    str_offset_loop fuel raw (byte_pos cs k) d (-1) =
    if 0 <=? Z.of_nat k + d then OffSome (byte_pos cs (Z.to_nat (Z.of_nat k + d))) else OffNone.
  Proof.
    induction m as [|m IH]; intros fuel k d Hm Hd Hk Hf; [lia|].
    destruct k as [|k].
    - rewrite byte_pos_0 in *. destruct fuel as [|fuel]; [lia|]. cbn [str_offset_loop]. cbv zeta.
      destruct ((0 + -1 <? 0) || (0 + -1 >? zlen raw)) eqn:E1; [|lia].
      destruct (0 <=? Z.of_nat 0 + d) eqn:E2; auto; lia.
    - pose proof (byte_pos_mono1 k ltac:(lia)). pose proof (byte_pos_nonneg k).
      rewrite (loop_bwd_in (Z.to_nat (byte_pos cs (S k) - byte_pos cs k)) fuel k) by lia.
      destruct (d + 1 =? 0) eqn:Ed.
      + destruct (0 <=? Z.of_nat (S k) + d) eqn:E2; [|lia]. do 2 f_equal. lia.
      + rewrite (IH _ k (d + 1)) by lia.
        replace (Z.of_nat k + (d + 1)) with (Z.of_nat (S k) + d) by lia. auto.
  Qed.

  Lemma str_presents : presents str_data raw cs (byte_pos cs).
  Proof.
    constructor.
    - apply byte_pos_0.
    - apply byte_pos_n.
    - apply byte_pos_mono.
    - intros k d Hk. cbn [d_offset str_data]. unfold str_offset.
      pose proof (byte_pos_nonneg k). pose proof (byte_pos_le_len k Hk).
      destruct (d =? 0) eqn:E0.
      + unfold zlen. destruct (_ && _) eqn:E1; [|lia]. do 2 f_equal. lia.
      + destruct (Z_lt_le_dec 0 d).
        * replace (Z.sgn d) with 1 by lia.
          rewrite (loop_fwd (Z.to_nat d)) by (unfold zlen in *; lia).
          unfold zlen, n. destruct (Z.of_nat k + d <=? Z.of_nat (length cs)) eqn:E1;
            destruct (0 <=? Z.of_nat k + d) eqn:E2; cbn; auto; lia.
        * replace (Z.sgn d) with (-1) by lia.
          rewrite (loop_bwd (Z.to_nat (-d))) by (unfold zlen in *; lia).
          unfold zlen. destruct (0 <=? Z.of_nat k + d) eqn:E1;
            destruct (Z.of_nat k + d <=? Z.of_nat (length cs)) eqn:E2; cbn; auto; lia.
    - intros k Hk. cbn [d_item str_data]. unfold str_item.
      pose proof (byte_pos_nonneg k). rewrite boundary_at by auto.
      destruct (0 <=? byte_pos cs k) eqn:E; [cbn [andb]|lia].
      unfold raw. rewrite (byte_pos_split cs k Hk).
      assert (Hs : skipn (Z.to_nat (byte_pos cs k)) (encode_all (firstn k cs) ++ encode_all (skipn k cs))
                   = encode_all (skipn k cs)).
      { unfold byte_pos, zlen. rewrite Nat2Z.id.
        rewrite skipn_app, skipn_all, Nat.sub_diag. reflexivity. }
      rewrite Hs. destruct (nth_error cs k) as [c|] eqn:Ec.
      + rewrite (skipn_nth_cons _ _ _ Ec). cbn [encode_all flat_map]. apply decode_encode.
        eapply valid_nth; eauto.
      + apply nth_error_None in Ec. rewrite skipn_all2 by auto. reflexivity.
  Qed.
End Str.

(** ** The fuel of str_offset is always sufficient, from any index. *)
Lemma str_offset_loop_no_fuel_fwd : forall fuel l index d,
  zlen l - index < Z.of_nat fuel -> 0 < Z.of_nat fuel ->
  str_offset_loop fuel l index d 1 <> OffFuel.
Proof.
  induction fuel as [|fuel IH]; intros l index d Hf H0; [lia|]. cbn [str_offset_loop]. cbv zeta.
  destruct ((index + 1 <? 0) || (index + 1 >? zlen l)) eqn:E; [easy|].
  destruct (_ =? 0); [easy|]. apply IH; lia.
Qed.

Lemma str_offset_loop_no_fuel_bwd : forall fuel l index d,
  index < Z.of_nat fuel -> 0 < Z.of_nat fuel ->
  str_offset_loop fuel l index d (-1) <> OffFuel.
Proof.
  induction fuel as [|fuel IH]; intros l index d Hf H0; [lia|]. cbn [str_offset_loop]. cbv zeta.
  destruct ((index + -1 <? 0) || (index + -1 >? zlen l)) eqn:E; [easy|].
  destruct (_ =? 0); [easy|]. apply IH; lia.
Qed.

Lemma str_offset_loop_no_fuel : forall l index d, d <> 0 ->
  str_offset_loop (S (S (length l))) l index d (Z.sgn d) <> OffFuel.
Proof.
  intros l index d Hd. destruct (Z_lt_le_dec 0 d).
  - replace (Z.sgn d) with 1 by lia.
    destruct (Z_lt_le_dec index (-1)).
    + cbn [str_offset_loop]. cbv zeta. destruct ((index + 1 <? 0) || _) eqn:E; [easy|lia].
    + apply str_offset_loop_no_fuel_fwd; unfold zlen; lia.
  - replace (Z.sgn d) with (-1) by lia.
    destruct (Z_lt_le_dec (zlen l + 1) index).
    + cbn [str_offset_loop]. cbv zeta. destruct ((index + -1 <? 0) || _) eqn:E; [easy|lia].
    + apply str_offset_loop_no_fuel_bwd; unfold zlen in *; lia.
Qed.

(** ** Text extraction *)
Lemma sub_list_app : forall {A} (a b c : list A),
  sub_list (a ++ b ++ c) (zlen a) (zlen a + zlen b) = b.
Proof.
  intros. unfold sub_list, zlen. rewrite Nat2Z.id.
  replace (Z.to_nat (Z.of_nat (length a) + Z.of_nat (length b) - Z.of_nat (length a))) with (length b) by lia.
  rewrite skipn_app, skipn_all, Nat.sub_diag. cbn [skipn app].
  rewrite firstn_app, firstn_all, Nat.sub_diag. cbn [firstn]. rewrite app_nil_r. auto.
Qed.

Lemma skipn_skipn' : forall {A} (l : list A) a b, skipn a (skipn b l) = skipn (b + a) l.
Proof.
  intros A l a b; revert l a; induction b as [|b IH]; intros l a; [reflexivity|].
  destruct l as [|x l]; [destruct a; reflexivity|]. cbn [skipn Nat.add]. apply IH.
Qed.

Lemma split3 : forall {A} (l : list A) i j, (i <= j <= length l)%nat ->
  l = firstn i l ++ firstn (j - i) (skipn i l) ++ skipn j l.
Proof.
  intros A l i j H. rewrite <- (firstn_skipn i l) at 1. f_equal.
  rewrite <- (firstn_skipn (j - i) (skipn i l)) at 1. f_equal. rewrite skipn_skipn'. f_equal. lia.
Qed.

Lemma slice_get_text : forall l p i j, (i <= j)%nat -> (j < length l)%nat ->
  get_text slice_data (IStream l p) (Z.of_nat i) (Z.of_nat j) = Ok (firstn (S j - i) (skipn i l)).
Proof.
  intros l p i j Hij Hj. unfold get_text; cbn [data_raw].
  rewrite (pr_offset _ _ _ _ (slice_presents l)) by lia. unfold zlen.
  destruct (_ && _) eqn:E; [|lia]. cbv zeta. replace (Z.to_nat (Z.of_nat j + 1)) with (S j) by lia.
  assert (Hr : slice_range l (Z.of_nat i) (Z.of_nat (S j)) = Ok (firstn (S j - i) (skipn i l))).
  { unfold slice_range, zlen. destruct (_ && _ && _) eqn:E1; [|lia]. f_equal. unfold sub_list.
    rewrite Nat2Z.id. f_equal. lia. }
  destruct (Z.of_nat (S j) <? Z.of_nat (length l)) eqn:E2; cbn [d_slice d_slice_from slice_data]; auto.
  unfold zlen. replace (length l) with (S j) at 1 by lia. auto.
Qed.

Lemma str_range_spec : forall cs i j, Forall valid_char cs -> (i <= j <= length cs)%nat ->
  str_range (encode_all cs) (byte_pos cs i) (byte_pos cs j) =
  Ok (encode_all (firstn (j - i) (skipn i cs))).
Proof.
  intros cs i j Hv Hij. unfold str_range. rewrite !(boundary_at cs Hv) by lia.
  pose proof (byte_pos_nonneg cs i). pose proof (byte_pos_le_len cs Hv j ltac:(lia)).
  assert (byte_pos cs i <= byte_pos cs j).
  { destruct (Nat.eq_dec i j) as [->|]; [lia|]. pose proof (byte_pos_mono cs Hv i j). lia. }
  destruct (_ && _) eqn:E; [|lia]. f_equal.
  rewrite (split3 cs i j Hij) at 1. rewrite !encode_all_app.
  assert (Hj : byte_pos cs j = zlen (encode_all (firstn i cs)) + zlen (encode_all (firstn (j - i) (skipn i cs)))).
  { unfold byte_pos. rewrite <- zlen_app, <- encode_all_app. do 2 f_equal.
    replace j with (i + (j - i))%nat at 1 by lia. 
    rewrite <- (firstn_skipn i cs) at 1. rewrite firstn_app.
    rewrite firstn_firstn, firstn_length. replace (Nat.min (i + (j - i)) i) with i by lia.
    f_equal. f_equal. lia. }
  rewrite Hj. unfold byte_pos at 1. apply sub_list_app.
Qed.

Lemma str_get_text : forall cs p i j, Forall valid_char cs -> (i <= j)%nat -> (j < length cs)%nat ->
  get_text str_data (IStream (encode_all cs) p) (byte_pos cs i) (byte_pos cs j) =
  Ok (encode_all (firstn (S j - i) (skipn i cs))).
Proof.
  intros cs p i j Hv Hij Hj. unfold get_text; cbn [data_raw].
  rewrite (pr_offset _ _ _ _ (str_presents cs Hv)) by lia.
  replace ((0 <=? Z.of_nat j + 1) && (Z.of_nat j + 1 <=? zlen cs)) with true by (unfold zlen; lia).
  cbv zeta iota.
  replace (Z.to_nat (Z.of_nat j + 1)) with (S j) by lia.
  destruct (byte_pos cs (S j) <? zlen (encode_all cs)) eqn:E2; cbn [d_slice d_slice_from str_data].
  - apply str_range_spec; auto; lia.
  - assert (S j = length cs).
    { destruct (Nat.eq_dec (S j) (length cs)); auto. pose proof (byte_pos_mono cs Hv (S j) (length cs)).
      rewrite (byte_pos_n cs) in H. lia. }
    rewrite <- (byte_pos_n cs), <- H. apply str_range_spec; auto; lia.
Qed.

(** Data never changes and seek(index()) restores the state. *)
Lemma step_data : forall D s o s', step D s o = Ok s' -> data_raw s' = data_raw s.
Proof.
  intros D s o s' H. destruct o; cbn in H; try (inversion H; subst; auto; fail).
  - unfold consume in H. destruct (d_offset _ _ _ _); inversion H; auto.
  - destruct (la D s k); inversion H; auto.
Qed.

Lemma run_data : forall D ops s s', run D s ops = Ok s' -> data_raw s' = data_raw s.
Proof.
  induction ops as [|o ops IH]; intros s s' H; cbn in H; [inversion H; auto|].
  destruct (step D s o) as [s1|] eqn:E; [|easy]. cbn in H.
  rewrite (IH _ _ H). eapply step_data; eauto.
Qed.
