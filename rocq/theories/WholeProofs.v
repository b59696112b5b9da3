(** Proofs about the lexer and the parser put together (C97). *)
From Coq Require Import ZArith List Bool Lia.
From Coq Require Import ZifyBool ZifyNat.
From Verif Require Import Outcome CharStreamModel CharStreamSpec CharStreamProofs TokenStreamModel TokenStreamSpec LexerModel LexerSpec LexerProofs LexerProps.
From Verif Require Import IntervalSetModel ParserModel ParserSpec SpanSpec SpanProofs WholeSpec.
From Verif Require FactoryModel.
Import ListNotations.
Local Open Scope Z_scope.

(** ** Slices *)
Lemma sub_list_join : forall (l : list Z) a b c, 0 <= a -> a <= b -> b <= c -> c <= zlen l -> sub_list l a b ++ sub_list l b c = sub_list l a c.
Proof.
  intros l a b c A B C L. unfold sub_list, zlen in *.
  replace (skipn (Z.to_nat b) l) with (skipn (Z.to_nat (b - a)) (skipn (Z.to_nat a) l)) by (rewrite skipn_skipn'; f_equal; lia).
  set (m := skipn (Z.to_nat a) l). assert (length m = length l - Z.to_nat a)%nat by (unfold m; apply skipn_length).
  rewrite <- (firstn_skipn (Z.to_nat (b - a)) m) at 3. rewrite firstn_app, firstn_firstn, firstn_length_le by lia.
  rewrite Nat.min_r by lia. f_equal. f_equal. lia.
Qed.
Lemma sub_list_0 : forall (l : list Z) b, sub_list l 0 b = firstn (Z.to_nat b) l.
Proof. intros. unfold sub_list. cbn [skipn Z.to_nat]. f_equal. lia. Qed.
Lemma encoded_slice : forall cs i j, (i <= j < length cs)%nat ->
  encode_all (firstn (S j - i) (skipn i cs)) = sub_list (encode_all cs) (byte_pos cs i) (byte_pos cs (S j)).
Proof.
  intros cs i j H. pose proof (split3 cs i (S j) ltac:(lia)) as E. rewrite E at 2. rewrite !encode_all_app.
  replace (byte_pos cs (S j)) with (zlen (encode_all (firstn i cs)) + zlen (encode_all (firstn (S j - i) (skipn i cs)))).
  - unfold byte_pos. symmetry. apply sub_list_app.
  - unfold byte_pos. replace (firstn (S j) cs) with (firstn i cs ++ firstn (S j - i) (skipn i cs)).
    + rewrite encode_all_app. unfold zlen. rewrite app_length. lia.
    + rewrite <- (firstn_skipn i (firstn (S j) cs)). f_equal; [rewrite firstn_firstn; f_equal; lia|]. rewrite skipn_firstn_comm. reflexivity.
Qed.

(** the text of a token is the part of the raw input it covers *)
Lemma token_slice : forall D raw cs pos U a action sempred before_emit ch ah sh fuel n u s ts l' s',
  text_source D raw cs pos -> place_keeping action sempred before_emit -> no_own_tokens action -> no_own_text action sempred before_emit ->
  next_tokens D U a action sempred before_emit ch ah sh fuel n (new_base_lexer U (stream_new raw) u) s = Val (ts, l', s') ->
  forall t, In t ts -> FactoryModel.start t <= FactoryModel.stop t ->
  FactoryModel.tk_text t = sub_list raw (FactoryModel.start t) (FactoryModel.stop t + 1).
Proof.
  intros D raw cs pos U a action sempred before_emit ch ah sh fuel n u s ts l' s' TS K N NT H t I Le. destruct TS as [cs V|cs V].
  - destruct (C77_token_text_code_points cs U a action sempred before_emit ch ah sh fuel n u s ts l' s' V K N NT H t I Le) as (i & j & L & -> & -> & ->).
    unfold sub_list. f_equal; [lia|]. f_equal. lia.
  - destruct (C77_token_text_utf8 cs U a action sempred before_emit ch ah sh fuel n u s ts l' s' V K N NT H t I Le) as (i & j & L & -> & -> & ->).
    rewrite encoded_slice by auto. f_equal. lia.
Qed.

Section Parts.
  Variables (D : input_data) (raw cs : list Z) (pos : nat -> Z).
  Hypothesis TS : text_source D raw cs pos.
  Notation slice p := (sub_list raw (p_from p) (p_to p)).
  Notation made ps := (filter is_emitted ps).

  Lemma tiles_le : forall k ps n, tiles pos k ps n -> (k <= n)%nat.
  Proof. induction 1; lia. Qed.
  Lemma pos_0 : pos 0%nat = 0.
  Proof. apply (pr_pos0 _ _ _ _ (source_presents _ _ _ _ TS)). Qed.
  Lemma tiles_text : forall k ps n, tiles pos k ps n -> (n <= length cs)%nat ->
    concat (map (fun p => slice p) ps) = sub_list raw (pos k) (pos n).
  Proof.
    induction 1 as [k|k k' n p ps L E1 E2 T IH]; intros Hn; cbn [map concat].
    - unfold sub_list. rewrite Z.sub_diag. reflexivity.
    - pose proof (tiles_le _ _ _ T). rewrite IH by auto. rewrite E1, E2. apply sub_list_join.
      + rewrite <- pos_0. apply (pos_le _ _ _ _ TS). lia.
      + apply (pos_le _ _ _ _ TS). lia.
      + apply (pos_le _ _ _ _ TS). lia.
      + rewrite <- (pos_len _ _ _ _ TS). apply (pos_le _ _ _ _ TS). lia.
  Qed.

  (** the pieces before the token number [c] *)
  Lemma cut : forall k ps n, tiles pos k ps n -> forall c, (c < length (made ps))%nat ->
    exists ps1 p ps2, ps = ps1 ++ p :: ps2 /\ length (made ps1) = c /\ nth_error (made ps) c = Some p /\
      exists m, tiles pos k ps1 m /\ p_from p = pos m /\ (m <= n)%nat.
  Proof.
    induction 1 as [k|k k' n p ps L E1 E2 T IH]; intros c Hc; [cbn in Hc; lia|]. cbn [filter] in *. pose proof (tiles_le _ _ _ T).
    destruct (is_emitted p) eqn:Ep.
    - destruct c as [|c].
      + exists [], p, ps. split; [reflexivity|]. split; [reflexivity|]. split; [reflexivity|]. exists k. split; [constructor|]. split; [auto|lia].
      + cbn [length] in Hc. destruct (IH c ltac:(lia)) as (ps1 & q & ps2 & -> & A & B & m & C1 & C2 & C3).
        exists (p :: ps1), q, ps2. split; [reflexivity|]. cbn [filter]. rewrite Ep. split; [cbn; lia|]. split; [exact B|].
        exists m. split; [econstructor; eauto|auto].
    - destruct (IH c Hc) as (ps1 & q & ps2 & -> & A & B & m & C1 & C2 & C3).
      exists (p :: ps1), q, ps2. split; [reflexivity|]. cbn [filter]. rewrite Ep. split; [exact A|]. split; [exact B|].
      exists m. split; [econstructor; eauto|auto].
  Qed.

  Variable src : nat -> tok.
  Variable chan : Z.

  Fixpoint label (ps : list piece) (j : nat) : list part :=
    match ps with
    | [] => []
    | p :: ps =>
        match p_fate p with
        | Emitted => (if seen_b src chan j then InLeaf (tok_at src j) else OffChannel (tok_at src j)) :: label ps (S j)
        | Skipped => SkippedText (slice p) :: label ps j
        | Dropped => DroppedText (slice p) :: label ps j
        end
    end.
  Lemma label_leaves : forall ps j, flat_map in_leaf (label ps j) = map (tok_at src) (filter (seen_b src chan) (seq j (length (made ps)))).
  Proof.
    induction ps as [|p ps IH]; intros j; [reflexivity|]. cbn [label filter]. unfold is_emitted at 1. destruct (p_fate p); cbn [flat_map in_leaf app]; auto.
    cbn [length seq filter]. destruct (seen_b src chan j); cbn [in_leaf app map]; now rewrite IH.
  Qed.
  Lemma label_dropped : forall ps j, flat_map dropped (label ps j) = map (fun p => slice p) (filter is_dropped ps).
  Proof.
    induction ps as [|p ps IH]; intros j; [reflexivity|]. cbn [label filter]. unfold is_dropped at 1. destruct (p_fate p); cbn [flat_map dropped app map]; auto.
    - destruct (seen_b src chan j); cbn [dropped app]; auto.
    - now rewrite IH.
  Qed.
  Lemma label_off : forall ps j t, In (OffChannel t) (label ps j) -> t_channel t <> chan.
  Proof.
    induction ps as [|p ps IH]; intros j t H; [destruct H|]. cbn [label] in H. destruct (p_fate p); cbn [In] in H; try (destruct H as [H|H]; [discriminate|eauto]).
    destruct H as [H|H]; [|eauto]. destruct (seen_b src chan j) eqn:E; [discriminate|]. injection H as <-. unfold seen_b in E.
    unfold tok_at. cbn. lia.
  Qed.
  Lemma label_text : forall ps j,
    (forall i p, nth_error (made ps) i = Some p -> t_text (src (j + i)%nat) = slice p) ->
    concat (map part_text (label ps j)) = concat (map (fun p => slice p) ps).
  Proof.
    induction ps as [|p ps IH]; intros j H; [reflexivity|]. cbn [label map concat]. cbn [filter] in H. unfold is_emitted at 1 in H. destruct (p_fate p).
    - cbn [map concat]. f_equal.
      + specialize (H O p eq_refl). rewrite Nat.add_0_r in H. destruct (seen_b src chan j); cbn [part_text]; unfold tok_at, set_index; cbn; exact H.
      + apply IH. intros i q Hq. specialize (H (S i) q Hq). now rewrite Nat.add_succ_r in H.
    - cbn [map concat part_text]. f_equal. now apply IH.
    - cbn [map concat part_text]. f_equal. now apply IH.
  Qed.
End Parts.

Lemma Forall2_nth {A B} (R : A -> B -> Prop) xs ys : Forall2 R xs ys -> forall i y, nth_error ys i = Some y -> exists x, nth_error xs i = Some x /\ R x y.
Proof. induction 1; intros [|i] z Hz; cbn in *; try discriminate; [injection Hz as <-; eauto|eauto]. Qed.
Lemma Forall2_app_r {A B} (R : A -> B -> Prop) xs ys zs : Forall2 R xs (ys ++ zs) -> exists xs1 xs2, xs = xs1 ++ xs2 /\ Forall2 R xs1 ys /\ Forall2 R xs2 zs.
Proof. intros H. apply Forall2_app_inv_r in H as (l1 & l2 & H1 & H2 & ->). eauto. Qed.

(** ** Everything before the token at which the parser stands *)
Notation report_text := (fun r : Z * Z * list Z => snd r).
Definition source_parts (raw : list Z) (toks : list FactoryModel.token) (last : FactoryModel.token) (reports : list (Z * Z * list Z)) (chan : Z) (c : nat) (parts : list part) : Prop :=
  concat (map part_text parts) = firstn (Z.to_nat (FactoryModel.start (nth c toks last))) raw /\
  flat_map in_leaf parts = tokens_before (lexed toks last) chan c /\
  (forall t, In (OffChannel t) parts -> t_channel t <> chan) /\
  (exists later, map report_text reports = flat_map dropped parts ++ later).

Lemma before_cursor : forall D raw cs pos U a action sempred before_emit ch ah sh fuel n u s toks last l' s',
  text_source D raw cs pos -> place_keeping action sempred before_emit -> no_own_tokens action -> no_own_text action sempred before_emit ->
  next_tokens D U a action sempred before_emit ch ah sh fuel n (new_base_lexer U (stream_new raw) u) s = Val (toks ++ [last], l', s') ->
  Forall (fun t => FactoryModel.token_type t <> -1 /\ FactoryModel.start t <= FactoryModel.stop t) toks ->
  forall chan c, (c <= length toks)%nat -> exists parts, source_parts raw toks last (lx_errors U l') chan c parts.
Proof.
  intros D raw cs pos U a action sempred before_emit ch ah sh fuel n u s toks last l' s' TS K N NT H FT chan c Hc.
  pose proof (token_slice _ _ _ _ _ _ _ _ _ _ _ _ _ _ _ _ _ _ _ TS K N NT H) as TX.
  destruct (C38_tiling _ _ _ _ _ _ _ _ _ _ _ _ _ _ _ _ _ _ _ TS K N H) as (k & made & eofs & Hk & _ & T & _ & E & F & G & GE & _ & _ & R).
  cbv zeta in *. set (ps := pieces None (lx_log U l')) in *.
  assert (M : forall i t, (i < length toks)%nat -> nth_error made i = Some t -> nth i toks last = t).
  { intros i t Hi Ht. assert (Q : nth_error (toks ++ [last]) i = Some t) by (rewrite E; rewrite nth_error_app1; [auto|apply nth_error_Some; congruence]).
    rewrite nth_error_app1 in Q by lia. eapply nth_error_nth in Q. exact Q. }
  assert (TXT : forall ps1 rest, ps = ps1 ++ rest -> (length (filter is_emitted ps1) <= length toks)%nat ->
    forall i p, nth_error (filter is_emitted ps1) i = Some p -> t_text (lexed toks last (0 + i)) = sub_list raw (p_from p) (p_to p)).
  { intros ps1 rest EQ L i p Hp. assert (Li : (i < length (filter is_emitted ps1))%nat) by (apply nth_error_Some; congruence).
    assert (Hp' : nth_error (filter is_emitted ps) i = Some p) by (rewrite EQ, filter_app, nth_error_app1; auto).
    destruct (Forall2_nth _ _ _ F _ _ Hp') as (t & Ht & X1 & X2 & _). unfold lexed. cbn [Nat.add streamed t_text]. rewrite (M i t ltac:(lia) Ht).
    assert (In t toks) by (rewrite <- (M i t ltac:(lia) Ht); apply nth_In; lia).
    rewrite Forall_forall in FT. destruct (FT t) as [_ FL]; auto.
    rewrite TX; [|apply in_app_iff; auto|auto]. rewrite X1, X2. f_equal. lia. }
  assert (REP : forall ps1 rest, ps = ps1 ++ rest -> exists later, map report_text (lx_errors U l') = map (fun p => sub_list raw (p_from p) (p_to p)) (filter is_dropped ps1) ++ later).
  { intros ps1 rest EQ. rewrite EQ, filter_app in R. destruct (Forall2_app_r _ _ _ _ R) as (r1 & r2 & -> & R1 & _). rewrite map_app. exists (map report_text r2). f_equal.
    clear - R1. induction R1 as [|[[x y] z] p r1 qs H R1 IH]; [reflexivity|]. cbn [map]. destruct H as [_ ->]. cbn [snd]. now rewrite IH. }
  assert (DONE : forall ps1 rest m, ps = ps1 ++ rest -> length (filter is_emitted ps1) = c -> tiles pos 0 ps1 m -> (m <= k)%nat ->
    FactoryModel.start (nth c toks last) = pos m -> exists parts, source_parts raw toks last (lx_errors U l') chan c parts).
  { intros ps1 rest m EQ L TI Hm SM. exists (label raw (lexed toks last) chan ps1 0). split; [|split; [|split]].
    - rewrite label_text by (eapply TXT; eauto; lia). erewrite (tiles_text _ _ _ _ TS); [|exact TI|lia]. rewrite (pos_0 _ _ _ _ TS), sub_list_0, SM. reflexivity.
    - rewrite label_leaves, L. reflexivity.
    - intros t. apply label_off.
    - rewrite label_dropped. eapply REP; eauto. }
  assert (Lm : length made = length (filter is_emitted ps)) by (clear - F; induction F; cbn; auto).
  destruct (Nat.lt_ge_cases c (length made)) as [Lc|Lc].
  - destruct (cut pos 0 ps k T c ltac:(lia)) as (ps1 & p & ps2 & EQ & L & Np & m & TI & Pf & Hm).
    apply (DONE ps1 (p :: ps2) m EQ L TI); auto.
    destruct (Forall2_nth _ _ _ F _ _ Np) as (t & Ht & X1 & _).
    assert (Q : nth_error (toks ++ [last]) c = Some t) by (rewrite E, nth_error_app1; auto).
    replace (nth c toks last) with t; [congruence|].
    destruct (Nat.eq_dec c (length toks)) as [->|Dc].
    + rewrite nth_error_app2, Nat.sub_diag in Q by lia. injection Q as ->. now rewrite nth_overflow.
    + rewrite nth_error_app1 in Q by lia. symmetry. now apply nth_error_nth.
  - assert (NE : eofs <> []).
    { intros ->. rewrite app_nil_r in E. apply (f_equal (@length _)) in E. rewrite app_length in E. cbn in E. lia. }
    assert (c = length toks /\ made = toks /\ eofs = [last]) as (-> & EM & EE).
    { destruct (Nat.lt_ge_cases (length made) (length toks)) as [Q|Q].
      - exfalso. destruct eofs as [|e eofs]; [auto|]. inversion G as [|? ? [GT _] _]; subst.
        assert (X : nth_error (toks ++ [last]) (length made) = Some e) by (rewrite E, nth_error_app2, Nat.sub_diag by lia; reflexivity).
        rewrite nth_error_app1 in X by lia. apply nth_error_In in X. rewrite Forall_forall in FT. destruct (FT e X). auto.
      - pose proof (f_equal (@length _) E) as EL. rewrite !app_length in EL. cbn in EL.
        assert (length eofs = 1)%nat by (destruct eofs; [contradiction|cbn in *; lia]).
        destruct eofs as [|e [|]]; cbn in *; try lia. apply app_inj_tail in E as [-> ->]. split; [lia|auto]. }
    subst made eofs. assert (k = length cs) by auto. subst k.
    apply (DONE ps [] (length cs)); auto.
    + now rewrite app_nil_r.
    + rewrite nth_overflow by lia. inversion G as [|? ? (_ & GS & _) _]; subst. rewrite GS. symmetry. apply (pos_len _ _ _ _ TS).
Qed.
