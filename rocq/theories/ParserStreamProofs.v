(** What a parser consumes from a CommonTokenStream; matched tokens in the tree; nesting. *)
From Coq Require Import ZArith List Bool Lia.
From Coq Require Import ZifyBool ZifyNat.
From Verif Require Import Outcome IntervalSetModel AtnModel CharStreamModel TokenStreamModel TokenStreamSpec TokenStreamProofs CommonTokenStreamProofs.
From Verif Require Import Ll1Model ParserModel ParserSpec ParserTreeProofs ParserRunProofs ParserEventProofs.
Import ListNotations.
Local Open Scope Z_scope.

Section Common.
  Variable src : nat -> tok.
  Variable ch : Z.
  Variable fuel : nat.
  Notation stream := (common_stream src ch fuel).
  Definition reading (s : uts) : Prop :=
    exists n c, crep src n s /\ cur s = Z.of_nat c /\ (c = 0%nat \/ visible src ch c).
  Definition read_so_far (s : uts) : list tok := tokens_before src ch (Z.to_nat (cur s)).

  Lemma of_out_val : forall A (o : out A) a, of_out o = Val a -> o = Done a.
  Proof. intros A [x| |] a H; cbn in H; inversion H; auto. Qed.

  Lemma seen_visible : forall n, seen_b src ch n = true <-> n = 0%nat \/ visible src ch n.
  Proof.
    intros n. unfold seen_b, visible, is_eof. rewrite !orb_true_iff, Nat.eqb_eq, !Z.eqb_eq. tauto.
  Qed.

  Lemma filter_none : forall A (P : A -> bool) l, (forall x, In x l -> P x = false) -> filter P l = [].
  Proof.
    induction l as [|x l IH]; intros H; cbn; auto. rewrite (H x) by (left; auto). apply IH. intros y Hy. apply H. right; auto.
  Qed.

  Lemma tokens_step : forall c j, c = 0%nat \/ visible src ch c -> first_visible src ch (S c) j ->
    tokens_before src ch j = tokens_before src ch c ++ [tok_at src c].
  Proof.
    intros c j Hc (Hj & Hv & Hno). unfold tokens_before.
    replace j with (c + (1 + (j - S c)))%nat by lia. rewrite !seq_app. cbn [seq plus].
    rewrite !filter_app, !map_app. f_equal. cbn [filter]. rewrite (proj2 (seen_visible c) Hc). cbn [map app]. 
    rewrite (filter_none _ _ (seq _ _)); auto.
    intros m Hm. apply in_seq in Hm. destruct (seen_b src ch m) eqn:E; auto. apply seen_visible in E as [->|E]; [lia|].
    exfalso. apply (Hno m); auto. lia.
  Qed.

  Lemma common_history : forall e, eof_number src e -> (e <= fuel)%nat -> history stream reading read_so_far.
  Proof.
    intros e [He Hne] Hf. constructor; cbn [s_lt s_get s_index s_consume common_stream].
    - intros s k s' t (n & c & R & Hc & Hv) H. apply of_out_val in H.
      destruct (clt_rep src ch fuel _ _ _ _ _ R H) as (n' & R' & _ & Hc' & _).
      split; [exists n', c; rewrite Hc'; auto|]. unfold read_so_far. now rewrite Hc'.
    - intros s t s' (n & c & R & Hc & Hv) Hg H. apply of_out_val in H. apply of_out_val in Hg.
      destruct (cconsume_spec src ch fuel n s c R Hc) as [H1 H2].
      destruct (eof_dec src c) as [Hec|Hec]; [rewrite H1 in H by auto; easy|].
      destruct (H2 e Hec He ltac:(lia)) as (s1 & n1 & j & E1 & R1 & _ & Hj & _ & Hfv).
      rewrite E1 in H. inversion H; subst s1. clear H.
      split; [exists n1, j; split; [auto|]; split; [auto|]; right; apply Hfv|].
      unfold read_so_far. rewrite Hj, Hc, !Nat2Z.id. rewrite (tokens_step c j Hv Hfv). f_equal. f_equal.
      destruct R as [R Hp]. pose proof (crep_cur src n s (conj R Hp)) as Hpc.
      unfold TokenStreamModel.get, get_buffer_start_index in Hg. replace (cur s - (cur s - p s)) with (Z.of_nat c) in Hg by lia.
      rewrite (rep_get src n s c R) in Hg by lia.
      now inversion Hg.
  Qed.

  Lemma start_reading : reading (with_channel src) /\ read_so_far (with_channel src) = [].
  Proof.
    destruct (with_channel_rep src) as [R Hc]. split.
    - exists 1%nat, 0%nat. auto.
    - unfold read_so_far. now rewrite Hc.
  Qed.
End Common.

Section Matched.
  Context {S : Type}.
  Variable ts : stream_ops S.
  Variable a : atn.
  Variable names : naming.
  Variable fuel : nat.
  Ltac step H := match type of H with obindo ?x _ = Val _ => let E := fresh "E" in destruct x eqn:E; cbn [obindo] in H; [|discriminate|discriminate] end.
  Notation flat := (flat no_inv no_past).
  Notation flat_ex := (flat_ex no_inv no_past).
  Notation Hist := (no_history ts).

  (** [k] is the last node added *)
  Definition last_node (p p' : parser S) (k : kid) : Prop :=
    p_build p = true -> forall i c, p_ctx p = Some i -> nth_error (p_heap p) i = Some c ->
      exists c' more, nth_error (p_heap p') i = Some c' /\ x_children c' = x_children c ++ more ++ [k].

  Lemma flat_last : forall p q r acts x, flat_ex p q -> flat (acts ++ [x]) q r -> last_node p r (kid_of x).
  Proof.
    intros p q r acts x [acts0 F] G Hb i c Hi Hc. destruct (flat_trans _ _ _ _ _ _ _ F G) as [T1 T2 T3 T4 T5 T6 T7 T8 T9].
    rewrite Hi in T6. unfold kids_of, showing in T6. rewrite Hb in T6. cbn [orb grow] in T6.
    eexists _, (map kid_of (acts0 ++ acts)). split; [rewrite T6; apply nth_update_same; eauto|]. cbn [add_kids set_children x_children].
    now rewrite !map_app, <- !app_assoc.
  Qed.
  Lemma consume_last : forall rec p q r, flat_ex p q -> consume ts rec q = Val r ->
    exists t, get_current_token ts q = Val t /\ last_node p r (if rec then KErr t else KTerm t).
  Proof.
    intros rec p q r F H. destruct (consume_flat ts no_inv no_past Hist _ _ _ H) as (t & Ht & G). exists t. split; auto.
    replace (if rec then KErr t else KTerm t) with (kid_of (if t_type t =? -1 then Saw t rec else Took t rec)) by (destruct (t_type t =? -1); auto).
    eapply flat_last with (acts := []); eauto.
  Qed.

  Definition is_node_of (t : tok) (k : kid) : Prop := k = KTerm t \/ k = KErr t.
  Lemma recovered_leaf : forall g p g' p1 t p', recover_inline ts a names fuel g p = Val (g', p1, inl t) -> add_missing p1 t = Val p' ->
    exists k, is_node_of t k /\ last_node p p' k.
  Proof.
    intros g p g' p1 t p' H HM. destruct g as [d|d]; cbn [recover_inline] in H; [|step H; step H; discriminate].
    destruct (d_recover_inline ts a names fuel d p) as [[[d1 q] r1]| |] eqn:E; cbn [obindo] in H; try discriminate. inversion H; subst. clear H.
    pose proof (d_recover_inline_flat ts a names fuel _ _ Hist _ _ _ _ _ E) as FX.
    destruct (p_build p1 && (t_index t =? -1)) eqn:EB.
    - exists (KErr t). split; [right; auto|]. unfold add_missing in HM. rewrite EB in HM. apply andb_prop in EB as [Eb Ei].
      unfold get_ctx in HM. destruct (p_ctx p1) as [j|] eqn:Ej; cbn in HM; try discriminate. inversion HM; subst.
      destruct FX as [acts F]. pose proof F as [T1 T2 T3 T4 T5 T6 T7 T8 T9]. intros Hb i c Hi Hc.
      rewrite T1, Hi in Ej. inversion Ej; subst j. rewrite Hi in T6. unfold kids_of, showing in T6. rewrite Hb in T6. cbn [orb grow] in T6.
      eexists _, (map kid_of acts). cbn [p_heap modify with_heap]. rewrite T6. split; [apply nth_update_same; apply nth_update_same; eauto|].
      cbn. now rewrite app_assoc.
    - unfold add_missing in HM. rewrite EB in HM. inversion HM; subst. clear HM. unfold d_recover_inline in E.
      destruct (single_token_deletion ts a names fuel d p) as [[[d1' q] o]| |] eqn:E1; cbn [obindo] in E; try discriminate.
      pose proof (deletion_flat ts a names fuel _ _ Hist _ _ _ _ _ E1) as F1. destruct o as [t'|].
      + step E. inversion E; subst. destruct (consume_last _ _ _ _ F1 E0) as (t' & Ht & L).
        assert (t' = t).
        { unfold single_token_deletion in E1. destruct (la ts p 2) as [[q1 nx]| |]; cbn [obindo] in E1; try discriminate. step E1.
          destruct (contains _ _); [|discriminate]. step E1. destruct a1 as [d3 q3]. step E1. step E1. inversion E1; subst. congruence. }
        subst t'. eexists. split; [|exact L]. destruct (recovering d1); [right|left]; auto.
      + destruct (single_token_insertion ts a names fuel d1' q) as [[[d2 q2] b]| |] eqn:E2; cbn [obindo] in E; try discriminate.
        destruct b; [|step E; discriminate]. step E. inversion E; subst. unfold get_missing_symbol in E0. step E0. step E0. step E0. inversion E0; subst.
        cbn [t_index] in EB. rewrite andb_false_iff in EB. destruct EB as [EB|EB]; [|discriminate].
        exists (KErr (Tok (match get_min a0 with Some x => x | None => TOKEN_INVALID_TYPE end) 0
            (if match get_min a0 with Some x => x | None => TOKEN_INVALID_TYPE end =? TOKEN_EOF then missing_eof_text
             else missing_text (display_name names match get_min a0 with Some x => x | None => TOKEN_INVALID_TYPE end)) (-1) (t_line a2) (t_column a2))).
        split; [right; auto|]. destruct FX as [acts F]. intros Hb. pose proof (fl_build _ _ _ _ _ F). congruence.
  Qed.

  Lemma match_token_leaf : forall g p ty g' p' t, match_token ts a names fuel g p ty = Val (g', p', inl t) ->
    exists k, is_node_of t k /\ last_node p p' k.
  Proof.
    intros g p ty g' p' t H. unfold match_token in H. step H. destruct (_ =? ty).
    - step H. inversion H; subst. assert (F : flat_ex p (if ty =? TOKEN_EOF then with_eof p else p)).
      { destruct (_ =? _); eexists; [apply eof_flat|apply flat_refl]. }
      destruct (consume_last _ _ _ _ F E0) as (t' & Ht & L).
      assert (t' = t) by (destruct (ty =? TOKEN_EOF); unfold get_current_token in *; cbn in Ht; congruence). subst t'.
      eexists. split; [|exact L]. destruct (in_error_recovery_mode _); [right|left]; auto.
    - destruct (recover_inline ts a names fuel g p) as [[[g1 q] r1]| |] eqn:E1; cbn [obindo] in H; try discriminate.
      destruct r1; [step H|]; inversion H; subst. eapply recovered_leaf; eauto.
  Qed.
  Lemma match_wildcard_leaf : forall g p g' p' t, match_wildcard ts a names fuel g p = Val (g', p', inl t) ->
    exists k, is_node_of t k /\ last_node p p' k.
  Proof.
    intros g p g' p' t H. unfold match_wildcard in H. step H. destruct (_ >? 0).
    - step H. inversion H; subst. assert (F : flat_ex p p) by (eexists; apply flat_refl).
      destruct (consume_last _ _ _ _ F E0) as (t' & Ht & L).
      assert (t' = t) by congruence. subst t'.
      eexists. split; [|exact L]. destruct (in_error_recovery_mode _); [right|left]; auto.
    - destruct (recover_inline ts a names fuel g p) as [[[g1 q] r1]| |] eqn:E1; cbn [obindo] in H; try discriminate.
      destruct r1; [step H|]; inversion H; subst. eapply recovered_leaf; eauto.
  Qed.
End Matched.

(** ** Left nesting *)
Lemma nest_add : forall rule later x more, 
  (fst (nest rule x later), snd (nest rule x later) ++ more) =
  match rev later with
  | [] => (fst x, snd x ++ more)
  | (k, m) :: l => nest rule x (rev l ++ [(k, m ++ more)])
  end.
Proof.
  intros rule later. induction later as [|[k m] later IH]; intros x more; cbn [nest rev fst snd]; auto.
  rewrite IH. destruct (rev later) as [|[k' m'] l] eqn:E; cbn [app rev nest fst snd]; auto.
  rewrite rev_app_distr. cbn [rev app nest]. reflexivity.
Qed.
Lemma nest_snoc : forall rule later x k, nest rule x (later ++ [(k, [])]) =
  (k, [Node rule (fst (nest rule x later)) (snd (nest rule x later))]).
Proof. intros rule later. induction later as [|[k' m] later IH]; intros x k; cbn [nest app]; auto. Qed.

Lemma grows_all_app : forall rule cs cs' x z, grows_all rule (cs ++ cs') x z ->
  exists y, grows_all rule cs x y /\ grows_all rule cs' y z.
Proof.
  intros rule cs. induction cs as [|c cs IH]; intros cs' x z H; cbn in *; [exists x; split; [constructor|auto]|].
  inversion H as [|? ? ? ? y ? G1 G2]; subst. destruct (IH _ _ _ G2) as (w & W1 & W2). exists w. split; [econstructor; eauto|auto].
Qed.

Lemma nesting : forall rule cs k ts, grows_all rule cs (0%nat, []) (k, ts) -> labels_first cs ->
  exists first later, map fst later = pushed cs /\ nest rule first later = (k, ts).
Proof.
  intros rule cs. induction cs as [|c cs IH] using rev_ind; intros k ts G L.
  - inversion G; subst. exists (0%nat, []), []. auto.
  - destruct (grows_all_app _ _ _ _ _ G) as ([k1 ts1] & G1 & G2).
    destruct (IH _ _ G1) as (first & later & M & N).
    { intros don k' pl rest E. specialize (L don k' pl (rest ++ [c])). rewrite E, <- app_assoc in L. specialize (L eq_refl).
      apply Forall_app in L. tauto. }
    unfold pushed in *. rewrite flat_map_app. cbn [flat_map]. rewrite app_nil_r.
    inversion G2 as [|? ? ? ? y ? Gc Gn]; subst. inversion Gn; subst. clear G2 Gn.
    assert (Padd : forall more, (k, ts) = (k1, ts1 ++ more) -> 
              exists first later', map fst later' = map fst later /\ nest rule first later' = (k, ts)).
    { intros more E. rewrite E. pose proof (nest_add rule later first more) as NA. rewrite N in NA. cbn [fst snd] in NA.
      destruct (rev later) as [|[k2 m2] l] eqn:ER; unfold content in *; rewrite ?ER in NA; rewrite NA.
      - exists (fst first, snd first ++ more), []. split; [|auto]. rewrite <- (rev_involutive later), ER. reflexivity.
      - exists first, (rev l ++ [(k2, m2 ++ more)]). split; [|auto]. rewrite <- (rev_involutive later), ER. cbn [rev]. rewrite !map_app. reflexivity. }
    assert (Plab : forall k', ~ keeps_label c -> (k, ts) = (k', ts1) -> 
              exists first later', map fst later' = map fst later ++ [] /\ nest rule first later' = (k, ts)).
    { intros k' NK E. rewrite E. destruct later as [|x later].
      - cbn in N. exists (k', snd first), []. split; auto. cbn. rewrite N. reflexivity.
      - exfalso. assert (exists don k2 pl rest, cs = don ++ CNext k2 pl :: rest) as (don & k2 & pl & rest & E').
        { assert (HI : In (fst x) (pushed cs)) by (unfold pushed; rewrite <- M; left; auto).
          unfold pushed in HI. apply in_flat_map in HI as (c' & Hc' & Hi). destruct c'; cbn in Hi; try contradiction.
          apply in_split in Hc' as (don & rest & ->). eauto 10. }
        specialize (L don k2 pl (rest ++ [c])). rewrite E', <- app_assoc in L. specialize (L eq_refl).
        apply Forall_app in L as [_ L]. inversion L; subst. contradiction. }
    inversion Gc; subst.
    + destruct c; cbn in *; try contradiction; rewrite app_nil_r, <- M; eauto.
    + assert (E0 : (k, ts) = (k, ts ++ [])) by now rewrite app_nil_r.
      destruct c; cbn in *; try contradiction; rewrite ?app_nil_r, <- M; eauto.
    + rewrite <- M. eapply Plab; eauto.
    + rewrite <- M. eapply Plab; eauto.
    + exists first, (later ++ [(k, [])]). rewrite map_app, M. split; auto. rewrite nest_snoc, N. reflexivity.
    + rewrite app_nil_r, <- M. eauto.
    + rewrite app_nil_r, <- M. eauto.
Qed.

(** ** Removing a listener *)
Lemma remove_addr_spec : forall ls l, NoDup (map l_addr ls) -> In l ls ->
  exists before after, ls = before ++ l :: after /\ remove_addr (l_addr l) ls = Val (l, before ++ after) /\ ~ In l (before ++ after).
Proof.
  induction ls as [|x ls IH]; intros l ND H; [contradiction|]. cbn [map] in ND. inversion ND as [|? ? NI ND']; subst. cbn [remove_addr].
  destruct H as [->|H].
  - exists [], ls. rewrite Z.eqb_refl. repeat split; auto. intros C. apply NI. now apply in_map.
  - destruct (l_addr x =? l_addr l) eqn:E.
    + apply Z.eqb_eq in E. exfalso. apply NI. rewrite E. now apply in_map.
    + destruct (IH l ND' H) as (b & c & -> & R & NIn). exists (x :: b), c. rewrite R. cbn [obindo app]. repeat split; auto.
      intros [->|C]; [rewrite Z.eqb_refl in E; discriminate|contradiction].
Qed.
