(** Proofs about DFA dumps. *)
From Coq Require Import ZArith List Bool Lia Sorted.
From Coq Require Import ZifyBool ZifyNat.
From Verif Require Import Outcome Text ConfigSetModel DfaModel DumpModel DumpSpec TreeSpec TreeProofs.
Import ListNotations.
Local Open Scope Z_scope.

Section Dump.
  Context {X E : Type}.
  Implicit Types (st source : dfa_state X E).

  Lemma state_string_name : forall st s, get_state_string st = Val s -> state_name st s.
  Proof.
    intros st s H. unfold get_state_string in H. exists (isize_to_string (d_number st - 1)). split; [apply isize_to_string_ok|].
    destruct (d_accept st).
    - destruct (d_preds st); [|discriminate]. split; auto. exists (isize_to_string (d_prediction st)). split; [apply isize_to_string_ok|].
      inversion H. rewrite <- !app_assoc. reflexivity.
    - now inversion H.
  Qed.
  Lemma state_string_val : forall st, nameable st <-> exists s, get_state_string st = Val s.
  Proof.
    intros st. unfold nameable, get_state_string. destruct (d_accept st).
    - destruct (d_preds st); split; intros H; eauto; [destruct H; discriminate|destruct H; discriminate].
    - split; intros H; eauto.
  Qed.

  Section Label.
    Variable label : Z -> outcome text.

    Definition line_at (states : list (dfa_state X E)) source (tr : Z * Z) (s : text) : Prop :=
      let '(x, j) := tr in
      exists st' a b l, vget states j = Some st' /\ get_state_string source = Val a /\ get_state_string st' = Val b /\ label x = Val l /\
        s = a ++ lit "-" ++ l ++ lit "->" ++ b ++ [10].
    Definition real (j : Z) : Prop := j <> 0 /\ j <> ERROR_DFA_STATE_REF.

    Lemma vget_cons : forall A (x : A) l i, vget (x :: l) i = if i =? 0 then Some x else vget l (i - 1).
    Proof.
      intros A x l i. unfold vget. destruct (Z.ltb_spec i 0).
      - destruct (Z.eqb_spec i 0); [lia|]. destruct (Z.ltb_spec (i - 1) 0); [reflexivity|lia].
      - destruct (Z.eqb_spec i 0); [subst; reflexivity|]. destruct (Z.ltb_spec (i - 1) 0); [lia|].
        replace (Z.to_nat i) with (S (Z.to_nat (i - 1))) by lia. reflexivity.
    Qed.

    Lemma edges_lines : forall states source edges i s, edges_string label states source i edges = Val s ->
      exists trs lines, s = concat lines /\ Forall2 (line_at states source) trs lines /\
        StronglySorted (fun x y => fst x < fst y) trs /\
        forall x j, In (x, j) trs <-> vget edges (x - i) = Some j /\ real j.
    Proof.
      intros states source edges. induction edges as [|e edges IH]; intros i s H; cbn [edges_string] in H.
      - inversion H. exists [], []. do 3 (split; [constructor|]). intros x j. split; [contradiction|]. unfold vget. intros [A _].
        destruct (x - i <? 0); [discriminate|]. destruct (Z.to_nat (x - i)); discriminate.
      - destruct (_ || _) eqn:Q; cbn [obindo] in H.
        + destruct (edges_string label states source (i + 1) edges) as [r| |] eqn:R; cbn [obindo] in H; try discriminate.
          destruct (IH _ _ R) as (trs & lines & A & B & C & D). inversion H; subst s. exists trs, lines. split; [auto|]. split; auto. split; auto.
          intros x j. rewrite D, vget_cons. replace (x - (i + 1)) with (x - i - 1) by lia. unfold real.
          destruct (Z.eqb_spec (x - i) 0) as [Z|Z]; [|tauto]. split; [|intros [Q1 Q2]; injection Q1 as <-; lia].
          intros [Q1 _]. unfold vget in Q1. destruct (Z.ltb_spec (x - i - 1) 0); [discriminate|lia].
        + destruct (vget states e) as [st'|] eqn:V; cbn [unwrap obindo] in H; try discriminate.
          destruct (get_state_string source) as [a| |] eqn:S1; cbn [obindo] in H; try discriminate.
          destruct (label i) as [l| |] eqn:L; cbn [obindo] in H; try discriminate.
          destruct (get_state_string st') as [b| |] eqn:S2; cbn [obindo] in H; try discriminate.
          destruct (edges_string label states source (i + 1) edges) as [r| |] eqn:R; cbn [obindo] in H; try discriminate.
          destruct (IH _ _ R) as (trs & lines & A & B & C & D). inversion H; subst s.
          exists ((i, e) :: trs), ((a ++ lit "-" ++ l ++ lit "->" ++ b ++ [10]) :: lines).
          assert (G : forall x j, In (x, j) trs -> i < x).
          { intros x j I. apply D in I as [I _]. unfold vget in I. destruct (Z.ltb_spec (x - (i + 1)) 0); [discriminate|lia]. }
          split; [cbn; now subst r|]. split; [constructor; auto; exists st', a, b, l; auto|]. split.
          { constructor; auto. apply Forall_forall. intros [x j] I. cbn. eauto. }
          intros x j. cbn [In]. rewrite D, vget_cons. replace (x - (i + 1)) with (x - i - 1) by lia. unfold real.
          destruct (Z.eqb_spec (x - i) 0) as [Z|Z].
          * split.
            -- intros [I|[Q1 _]]; [injection I as <- <-; split; [reflexivity|lia]|]. unfold vget in Q1. destruct (Z.ltb_spec (x - i - 1) 0); [discriminate|lia].
            -- intros [I _]. injection I as <-. left. f_equal. lia.
          * split; [intros [I|I]; auto; injection I as <- <-; lia|auto].
    Qed.

    Lemma edges_val : forall states source edges i,
      (forall x j, vget edges (x - i) = Some j -> real j -> exists s, line_at states source (x, j) s) ->
      exists s, edges_string label states source i edges = Val s.
    Proof.
      intros states source edges. induction edges as [|e edges IH]; intros i H; cbn [edges_string]; [eauto|].
      assert (R : exists s, edges_string label states source (i + 1) edges = Val s).
      { apply IH. intros x j V Q. apply (H x j); auto. rewrite vget_cons. destruct (Z.eqb_spec (x - i) 0).
        - unfold vget in V. destruct (Z.ltb_spec (x - (i + 1)) 0); [discriminate|lia].
        - replace (x - i - 1) with (x - (i + 1)) by lia. auto. }
      destruct R as [r R]. rewrite R. destruct (_ || _) eqn:Q; cbn [obindo]; [eauto|].
      destruct (H i e) as (s & st' & a & b & l & V & S1 & S2 & L & _).
      - rewrite vget_cons. replace (i - i =? 0) with true by lia. reflexivity.
      - unfold real. lia.
      - rewrite V, S1, L. cbn [unwrap obindo]. rewrite S2. cbn [obindo]. eauto.
    Qed.

    Lemma states_lines : forall states todo k s, states_string label states todo = Val s ->
      exists trs lines, s = concat lines /\
        Forall2 (fun tr s => let '(i, x, j) := tr in exists source, (k <= i)%nat /\ nth_error todo (i - k) = Some source /\ line_at states source (x, j) s) trs lines /\
        StronglySorted listed_before trs /\
        forall i x j, In (i, x, j) trs <-> exists source, (k <= i)%nat /\ nth_error todo (i - k) = Some source /\ vget (d_edges source) x = Some j /\ real j.
    Proof.
      intros states todo. induction todo as [|source todo IH]; intros k s H; cbn [states_string] in H.
      - inversion H. exists [], []. do 3 (split; [constructor|]). intros i x j. split; [contradiction|]. intros (source & _ & N & _). destruct (i - k)%nat; discriminate.
      - destruct (edges_string label states source 0 (d_edges source)) as [s1| |] eqn:E1; cbn [obindo] in H; try discriminate.
        destruct (states_string label states todo) as [s2| |] eqn:E2; cbn [obindo] in H; try discriminate. inversion H; subst s.
        destruct (edges_lines _ _ _ _ _ E1) as (t1 & l1 & A1 & B1 & C1 & D1). destruct (IH (S k) _ eq_refl) as (t2 & l2 & A2 & B2 & C2 & D2). clear IH H E1 E2.
        exists (map (fun tr => (k, fst tr, snd tr)) t1 ++ t2), (l1 ++ l2). split; [now rewrite concat_app, A1, A2|]. split; [apply Forall2_app|split].
        + clear - B1. induction B1 as [|[x j] l t1 l1 P _ IH]; constructor; auto. cbn [fst snd]. exists source. replace (k - k)%nat with 0%nat by lia. auto.
        + clear - B2. induction B2 as [|[[i x] j] l t2 l2 (src & K & N & L) _ IH]; constructor; auto. exists src. split; [lia|].
          replace (i - k)%nat with (S (i - S k)) by lia. auto.
        + assert (T2 : forall i x j, In (i, x, j) t2 -> (k < i)%nat) by (intros i x j I; apply D2 in I as (? & ? & _); lia).
          clear - C1 C2 T2. induction C1 as [|[x j] l _ IH F]; cbn; auto. constructor; auto. apply Forall_app. split.
          * apply Forall_forall. intros [[i' x'] j'] I. apply in_map_iff in I as ([x2 j2] & Q & I). injection Q as <- <- <-. rewrite Forall_forall in F.
            right. split; auto. apply (F _ I).
          * apply Forall_forall. intros [[i' x'] j'] I. left. eauto.
        + intros i x j. rewrite in_app_iff, D2, in_map_iff. split.
          * intros [([x1 j1] & Q & I)|(src & K & N & R)].
            -- injection Q as <- <- <-. apply D1 in I as [V R]. rewrite Z.sub_0_r in V. exists source. replace (k - k)%nat with 0%nat by lia. auto.
            -- exists src. split; [lia|]. replace (i - k)%nat with (S (i - S k)) by lia. auto.
          * intros (src & K & N & V & R). destruct (Nat.eq_dec i k) as [->|Ne].
            -- left. replace (k - k)%nat with 0%nat in N by lia. injection N as <-. exists (x, j). split; auto. apply D1. now rewrite Z.sub_0_r.
            -- right. exists src. split; [lia|]. replace (i - k)%nat with (S (i - S k)) in N by lia. auto.
    Qed.

    Lemma states_val : forall states todo,
      (forall source x j, In source todo -> vget (d_edges source) x = Some j -> real j -> exists s, line_at states source (x, j) s) ->
      exists s, states_string label states todo = Val s.
    Proof.
      intros states todo. induction todo as [|source todo IH]; intros H; cbn [states_string]; [eauto|].
      destruct (edges_val states source (d_edges source) 0) as [s1 E1].
      { intros x j V R. rewrite Z.sub_0_r in V. apply H; auto. now left. }
      destruct IH as [s2 E2]; [intros; apply H; auto; now right|]. rewrite E1, E2. cbn [obindo]. eauto.
    Qed.
  End Label.

  Lemma slot_real : forall o j, slot o = Some j <-> o = Some j /\ j <> 0.
  Proof. intros [[|x|x]|] j; cbn; split; try discriminate; try (intros [H ?]; congruence); intros H; injection H as <-; split; auto; lia. Qed.

  (** the edges of a state as the cache reads them: at [off] from the symbol *)
  Lemma dump_ok : forall (label : Z -> text) (olabel : Z -> outcome text) off get (d : dfa X E) s,
    (forall edges t, get edges t = slot (vget edges (t + off))) ->
    (forall x l, olabel x = Val l -> l = label (x - off)) ->
    s0 d <> None -> serialize olabel d = Val s ->
    exists trs lines, s = concat lines /\ Forall2 (line_of label d) trs lines /\ StronglySorted listed_before trs /\
      forall i t j, In (i, t, j) trs <-> cached get d i t j.
  Proof.
    intros label olabel off get d s G L S0 H. unfold serialize in H. destruct (s0 d); [|congruence].
    destruct (states_lines olabel _ _ 0 s H) as (trs & lines & A & B & C & D).
    exists (map (fun tr => let '(i, x, j) := tr in (i, x - off, j)) trs), lines. split; auto. split; [|split].
    - clear - B L. induction B as [|[[i x] j] l trs lines P _ IH]; constructor; auto.
      destruct P as (source & _ & N & st' & a & b & l' & V & S1 & S2 & Q & ->). rewrite Nat.sub_0_r in N.
      exists source, st', a, b. split; auto. split; [unfold vget in V; destruct (j <? 0); [discriminate|exact V]|].
      split; [now apply state_string_name|]. split; [now apply state_string_name|]. now rewrite (L _ _ Q).
    - clear - C. induction C as [|[[i x] j] l _ IH F]; cbn; constructor; auto. apply Forall_forall. intros [[i' x'] j'] I.
      apply in_map_iff in I as ([[i2 x2] j2] & Q & I). injection Q as <- <- <-. rewrite Forall_forall in F. specialize (F _ I). cbn in F |- *. lia.
    - intros i t j. rewrite in_map_iff. split.
      + intros ([[i' x] j'] & Q & I). injection Q as <- <- <-. apply D in I as (source & _ & N & V & R1 & R2). rewrite Nat.sub_0_r in N.
        exists source. split; auto. rewrite G, slot_real. replace (x - off + off) with x by lia. auto.
      + intros (source & N & Q & R). rewrite G, slot_real in Q. exists (i, t + off, j). split; [f_equal; f_equal; lia|].
        apply D. exists source. rewrite Nat.sub_0_r. unfold real. intuition lia.
  Qed.

  Lemma dump_val : forall (olabel : Z -> outcome text) off get (d : dfa X E),
    (forall edges t, get edges t = slot (vget edges (t + off))) ->
    (forall i t j, cached get d i t j -> exists l, olabel (t + off) = Val l) ->
    (forall i t j, cached get d i t j -> 0 <= j /\ (exists st, nth_error (dfa_states d) i = Some st /\ nameable st) /\
                                         exists st', nth_error (dfa_states d) (Z.to_nat j) = Some st' /\ nameable st') ->
    exists s, serialize olabel d = Val s.
  Proof.
    intros olabel off get d G L H. unfold serialize. destruct (s0 d); [|eauto]. apply states_val.
    intros source x j I V [R1 R2]. apply In_nth_error in I as [i N].
    assert (C : cached get d i (x - off) j).
    { exists source. split; auto. rewrite G, slot_real. replace (x - off + off) with x by lia. auto. }
    destruct (H _ _ _ C) as (J & (st & N1 & P1) & st' & N2 & P2). destruct (L _ _ _ C) as [l Q]. replace (x - off + off) with x in Q by lia.
    rewrite N in N1. injection N1 as <-. apply state_string_val in P1 as [a P1], P2 as [b P2].
    eexists. exists st', a, b, l. split; [unfold vget; destruct (Z.ltb_spec j 0); [lia|exact N2]|]. auto.
  Qed.
End Dump.
