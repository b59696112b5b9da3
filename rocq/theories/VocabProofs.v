(** Proofs about token names. *)
From Coq Require Import ZArith List Bool Lia.
From Coq Require Import ZifyBool ZifyNat.
From Verif Require Import TreeModel TreeSpec TreeProofs VocabModel VocabSpec.
Import ListNotations.
Local Open Scope Z_scope.

Lemma get_entry table t : is_isize t -> Z.of_nat (length table) < 2 ^ 63 ->
  (exists s, flatten (get table (as_usize t)) = Some s /\ entry table t s) \/
  (flatten (get table (as_usize t)) = None /\ no_entry table t).
Proof.
  intros Ht Hl. unfold is_isize in Ht. unfold get, as_usize, len.
  assert (Hneg : t < 0 -> t mod 2 ^ 64 = t + 2 ^ 64).
  { intros H. symmetry. apply (Z.mod_unique t (2 ^ 64) (-1)); lia. }
  assert (Hpos : 0 <= t -> t mod 2 ^ 64 = t) by (intros H; apply Z.mod_small; lia).
  destruct (Z_lt_le_dec t 0) as [Hn|Hn].
  - rewrite (Hneg Hn). rewrite (proj2 (Z.ltb_ge _ _)) by lia. right. split; [reflexivity|].
    intros s (n & -> & _). lia.
  - rewrite (Hpos Hn). destruct (Z.ltb_spec t (Z.of_nat (length table))) as [Hlt|Hge].
    + destruct (nth_error table (Z.to_nat t)) as [[s|]|] eqn:E; cbn.
      * left. exists s. split; [reflexivity|]. exists (Z.to_nat t). split; [lia|assumption].
      * right. split; [reflexivity|]. intros s (n & -> & En). rewrite Nat2Z.id in E. congruence.
      * apply nth_error_None in E. lia.
    + right. split; [reflexivity|]. intros s (n & -> & En).
      assert (n < length table)%nat by (apply nth_error_Some; congruence). lia.
Qed.

Lemma entry_fun table t s1 s2 : entry table t s1 -> entry table t s2 -> s1 = s2.
Proof. intros (n & -> & E1) (m & E & E2). assert (n = m) by lia. subst. congruence. Qed.

Lemma literal_ok v t : is_isize t -> fits v -> literal_is v t (get_literal_name v t).
Proof.
  intros Ht (Hl & _ & _). unfold get_literal_name.
  destruct (get_entry (literal_names v) t Ht Hl) as [(s & -> & H)|[-> H]]; now constructor.
Qed.

Lemma symbolic_ok v t : is_isize t -> fits v -> symbolic_is v t (get_symbolic_name v t).
Proof.
  intros Ht (_ & Hs & _). unfold get_symbolic_name. destruct (Z.eqb_spec t (-1)) as [E|E].
  - now constructor.
  - destruct (get_entry (symbolic_names v) t Ht Hs) as [(s & -> & H)|[-> H]]; now constructor.
Qed.

Lemma display_ok v t : is_isize t -> fits v -> display_is v t (get_display_name v t).
Proof.
  intros Ht Hf. pose proof (literal_ok v t Ht Hf) as HL. pose proof (symbolic_ok v t Ht Hf) as HS.
  destruct Hf as (_ & _ & Hd). unfold get_display_name.
  destruct (get_entry (display_names v) t Ht Hd) as [(s & -> & H)|[-> H]]; [now constructor|].
  destruct (get_literal_name v t) as [s|]; [now apply disp_literal|].
  destruct (get_symbolic_name v t) as [s|]; [now apply disp_symbolic|].
  apply disp_number; auto. apply isize_to_string_ok.
Qed.

Lemma literal_fun v t o1 o2 : literal_is v t o1 -> literal_is v t o2 -> o1 = o2.
Proof. intros H1 H2. inversion H1; inversion H2; subst; try reflexivity; try (f_equal; eapply entry_fun; eassumption); exfalso; firstorder. Qed.
Lemma symbolic_fun v t o1 o2 : symbolic_is v t o1 -> symbolic_is v t o2 -> o1 = o2.
Proof. intros H1 H2. inversion H1; inversion H2; subst; try congruence; try (f_equal; eapply entry_fun; eassumption); exfalso; firstorder. Qed.
Lemma display_fun v t s1 s2 : display_is v t s1 -> display_is v t s2 -> s1 = s2.
Proof.
  intros [s E|s N L|s N L S|s N L S D] [s' E'|s' N' L'|s' N' L' S'|s' N' L' S' D'];
    try (eapply entry_fun; eassumption); try (exfalso; now (eapply N; eassumption) || (eapply N'; eassumption));
    try (pose proof (literal_fun _ _ _ _ L L'); congruence);
    try (pose proof (symbolic_fun _ _ _ _ S S'); congruence).
  eapply decimal_of_fun; eassumption.
Qed.

(** ** from_token_names *)

Lemma clear_length {A} (l : list (option A)) i : length (clear l i) = length l.
Proof.
  unfold clear. rewrite app_length. rewrite <- (firstn_skipn i l) at 3. rewrite app_length. f_equal.
  destruct (skipn i l); reflexivity.
Qed.

Lemma clear_nth {A} (l : list (option A)) i j :
  nth_error (clear l i) j = if Nat.eqb j i then option_map (fun _ => None) (nth_error l j) else nth_error l j.
Proof.
  unfold clear. revert i j. induction l as [|x l IH]; intros i j.
  - rewrite firstn_nil, skipn_nil. cbn. destruct (Nat.eqb j i); destruct j; reflexivity.
  - destruct i as [|i]; cbn [firstn skipn app]; destruct j as [|j]; try reflexivity.
    cbn. apply IH.
Qed.

Section Names.
  Variable up : Z -> bool.

  Definition keeps_literal (tn : option text) : bool := match tn with Some (c :: _) => c =? 39 | _ => false end.
  Definition keeps_symbolic (tn : option text) : bool :=
    match tn with Some (c :: _) => negb (c =? 39) && up c | _ => false end.

  Lemma split_names_nth names : forall i lits syms lits' syms',
    split_names up (lits, syms) i names = (lits', syms') ->
    (forall j, nth_error lits' j =
       match (if (j <? i)%nat then None else nth_error names (j - i)) with
       | Some (Some tn) => if keeps_literal (Some tn) then nth_error lits j else option_map (fun _ => None) (nth_error lits j)
       | _ => nth_error lits j
       end) /\
    (forall j, nth_error syms' j =
       match (if (j <? i)%nat then None else nth_error names (j - i)) with
       | Some (Some tn) => if keeps_symbolic (Some tn) then nth_error syms j else option_map (fun _ => None) (nth_error syms j)
       | _ => nth_error syms j
       end).
  Proof.
    induction names as [|tn names IH]; intros i lits syms lits' syms' E.
    - cbn in E. injection E as <- <-. split; intros j; destruct (j <? i)%nat; rewrite ?nth_error_nil;
        destruct (j - i)%nat; reflexivity.
    - cbn [split_names] in E. destruct (split_name up (lits, syms) i tn) as [l1 s1] eqn:E1.
      destruct (IH _ _ _ _ _ E) as [HL HS]. clear IH E.
      assert (H1 : (forall j, nth_error l1 j = if Nat.eqb j i then
                      match tn with Some t => if keeps_literal (Some t) then nth_error lits j else option_map (fun _ => None) (nth_error lits j)
                      | None => nth_error lits j end else nth_error lits j) /\
                   (forall j, nth_error s1 j = if Nat.eqb j i then
                      match tn with Some t => if keeps_symbolic (Some t) then nth_error syms j else option_map (fun _ => None) (nth_error syms j)
                      | None => nth_error syms j end else nth_error syms j)).
      { unfold split_name in E1. destruct tn as [[|c tn]|]; cbn [keeps_literal keeps_symbolic].
        - injection E1 as <- <-. split; intros j; rewrite clear_nth; reflexivity.
        - destruct (c =? 39); cbn [negb andb].
          + injection E1 as <- <-. split; intros j; rewrite ?clear_nth; destruct (Nat.eqb j i); reflexivity.
          + destruct (up c); injection E1 as <- <-; split; intros j; rewrite ?clear_nth; destruct (Nat.eqb j i); reflexivity.
        - injection E1 as <- <-. split; intros j; destruct (Nat.eqb j i); reflexivity. }
      destruct H1 as [H1 H2].
      split; intros j; [rewrite HL, H1|rewrite HS, H2]; clear.
      + destruct (Nat.ltb_spec j (S i)), (Nat.ltb_spec j i), (Nat.eqb_spec j i); try lia; try reflexivity.
        * subst j. rewrite Nat.sub_diag. cbn [nth_error]. destruct tn; reflexivity.
        * replace (j - i)%nat with (S (j - S i)) by lia. reflexivity.
      + destruct (Nat.ltb_spec j (S i)), (Nat.ltb_spec j i), (Nat.eqb_spec j i); try lia; try reflexivity.
        * subst j. rewrite Nat.sub_diag. cbn [nth_error]. destruct tn; reflexivity.
        * replace (j - i)%nat with (S (j - S i)) by lia. reflexivity.
  Qed.

  Lemma from_names_ok names v : from_token_names up names = v ->
    display_names v = names /\
    (forall t s, entry (literal_names v) t s <-> entry names t s /\ keeps_literal (Some s) = true) /\
    (forall t s, entry (symbolic_names v) t s <-> entry names t s /\ keeps_symbolic (Some s) = true) /\
    length (literal_names v) = length names /\ length (symbolic_names v) = length names /\
    max_token_type v = Z.of_nat (length names) - 1.
  Proof.
    intros <-. unfold from_token_names. destruct (split_names up (names, names) 0 names) as [l s] eqn:E.
    destruct (split_names_nth names 0 names names l s E) as [HL HS].
    assert (Hext : forall (a b : list (option text)), (forall j, nth_error a j = None <-> nth_error b j = None) -> length a = length b).
    { clear. intros a b H. destruct (Nat.lt_trichotomy (length a) (length b)) as [Hl|[Hl|Hl]]; auto.
      - assert (nth_error b (length a) = None) by (apply H, nth_error_None; lia). apply nth_error_None in H0. lia.
      - assert (nth_error a (length b) = None) by (apply H, nth_error_None; lia). apply nth_error_None in H0. lia. }
    assert (Len1 : length l = length names).
    { apply Hext. intros j. rewrite HL. cbn [Nat.ltb Nat.leb]. rewrite Nat.sub_0_r.
      destruct (nth_error names j) as [[tn|]|]; [|tauto..]. destruct (keeps_literal (Some tn)); cbn; [tauto|].
      split; discriminate. }
    assert (Len2 : length s = length names).
    { apply Hext. intros j. rewrite HS. cbn [Nat.ltb Nat.leb]. rewrite Nat.sub_0_r.
      destruct (nth_error names j) as [[tn|]|]; [|tauto..]. destruct (keeps_symbolic (Some tn)); cbn; [tauto|].
      split; discriminate. }
    unfold vocab_new; cbn [display_names literal_names symbolic_names max_token_type]. unfold len.
    repeat split; auto; try lia.
    - destruct H as (n & -> & H). rewrite HL in H. cbn [Nat.ltb Nat.leb] in H. rewrite Nat.sub_0_r in H.
      destruct (nth_error names n) as [[tn|]|] eqn:En; try discriminate.
      destruct (keeps_literal (Some tn)); cbn in H; [|discriminate]. injection H as ->. exists n. auto.
    - destruct H as (n & -> & H). rewrite HL in H. cbn [Nat.ltb Nat.leb] in H. rewrite Nat.sub_0_r in H.
      destruct (nth_error names n) as [[tn|]|] eqn:En; try discriminate.
      destruct (keeps_literal (Some tn)) eqn:Ek; cbn in H; [|discriminate]. injection H as ->. assumption.
    - intros [(n & -> & H) Hk]. exists n. split; [reflexivity|]. rewrite HL. cbn [Nat.ltb Nat.leb]. rewrite Nat.sub_0_r, H, Hk. reflexivity.
    - destruct H as (n & -> & H). rewrite HS in H. cbn [Nat.ltb Nat.leb] in H. rewrite Nat.sub_0_r in H.
      destruct (nth_error names n) as [[tn|]|] eqn:En; try discriminate.
      destruct (keeps_symbolic (Some tn)); cbn in H; [|discriminate]. injection H as ->. exists n. auto.
    - destruct H as (n & -> & H). rewrite HS in H. cbn [Nat.ltb Nat.leb] in H. rewrite Nat.sub_0_r in H.
      destruct (nth_error names n) as [[tn|]|] eqn:En; try discriminate.
      destruct (keeps_symbolic (Some tn)) eqn:Ek; cbn in H; [|discriminate]. injection H as ->. assumption.
    - intros [(n & -> & H) Hk]. exists n. split; [reflexivity|]. rewrite HS. cbn [Nat.ltb Nat.leb]. rewrite Nat.sub_0_r, H, Hk. reflexivity.
  Qed.
End Names.
