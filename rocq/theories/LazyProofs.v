(** Proofs about lexers with non-greedy decisions (C105). *)
From Coq Require Import ZArith List Sorted Bool Lia.
From Coq Require Import ZifyBool ZifyNat.
From Verif Require Import Outcome CharStreamModel CharStreamSpec CharStreamProofs PredContextModel SemContextModel
  ConfigSetModel ConfigSetProofs DfaModel DfaProofs AtnModel AtnSpec AtnProofs Ll1Spec LexerModel LexerSpec LexerProofs
  LexMatchSpec LexMatchProofs LexCacheProofs LexTextProofs LazySpec LazyOrderProofs.
Import ListNotations.
Local Open Scope Z_scope.
Local Open Scope outcome_scope.

Section Lazy.
  Variable D : input_data.
  Variable U : Type.
  Variable a : atn.
  Variable sempred : Z -> Z -> lexer U -> bool * lexer U.
  Variable ctx_hash : pctx -> Z.
  Variable actions_hash : list lexer_action -> Z.
  Variable configs_hash : list (config hashed) -> Z.
  Hypothesis FM : lexer_formed a.
  Hypothesis RA : rules_apart a.
  Hypothesis NC : no_collisions D U a sempred ctx_hash actions_hash configs_hash.
  Notation lexer := (lexer U).
  Notation views st := (configs (d_configs st)).
  Notation meets := (LazyOrderProofs.meets a).
  Notation matched_before := (LexCacheProofs.matched_before a).
  Notation dfa_good := (dfa_good D U a sempred ctx_hash actions_hash configs_hash).
  Notation eat := (eat D U).
  Variables raw cs : list Z.
  Variable pos : nat -> Z.
  Hypothesis TS : text_source D raw cs pos.
  Variable k0 : nat.
  Variable l0 : lexer.
  Hypothesis Here : lx_input U l0 = IStream raw (pos k0).
  Hypothesis In0 : (k0 <= length cs)%nat.
  Notation rest := (skipn k0 cs).
  Notation text n := (firstn n (skipn k0 cs)).
  Notation symbol_at := (symbol_at cs k0).
  Variable m : Z.
  Hypothesis OC : Forall ordinary_char cs.

  (** what is left out after [i] characters *)
  Definition skipped_at (i : nat) : Prop := forall k, rule_matches a m k (text i) ->
    ~ greedy_rule a m k /\ exists n, (n < i)%nat /\ rule_matches a m k (text n).
  Lemma before_text i k : (i <= length rest)%nat -> matched_before m (text i) (Z.of_nat k + 1) ->
    exists n, (n < i)%nat /\ rule_matches a m k (text n).
  Proof.
    intros Li (k' & w1 & c & w2 & Ek & Ew & M). assert (k' = k) by lia. subst k'. exists (length w1).
    assert (Ln : length (text i) = i) by (apply firstn_length_le, Li). rewrite Ew, app_length in Ln. cbn in Ln. split; [lia|].
    assert (Et : text (length w1) = w1).
    { replace (text (length w1)) with (firstn (length w1) (text i)) by (rewrite firstn_firstn; f_equal; lia).
      rewrite Ew, firstn_app, Nat.sub_diag, firstn_all, app_nil_r. reflexivity. }
    rewrite Et. exact M.
  Qed.
  Lemma skipped_reject i st : (i <= length rest)%nat -> state_good D U a sempred ctx_hash actions_hash m st -> meets m (text i) (views st) ->
    d_accept st = false -> skipped_at i.
  Proof.
    intros Li SG (Co & _) Ac k M. destruct (reject_lazy D U a sempred ctx_hash actions_hash m _ _ SG Co Ac k M) as (G & B).
    split; [exact G|]. apply before_text; auto.
  Qed.

  Definition kept_in_mind (d : ldfa) (p : sim_state) (j : nat) : Prop :=
    (sa_state p = None /\ forall i, (i < j)%nat -> skipped_at i) \/
    exists q st n ln, sa_state p = Some q /\ 1 <= q /\ vget (dfa_states d) q = Some st /\ d_accept st = true /\ (n < j)%nat /\
      eat n l0 = Val ln /\ sa_index p = is_index (lx_input U ln) /\ sa_line p = lx_line U ln /\ sa_column p = lx_column U ln /\
      meets m (text n) (views st) /\ forall i, (n < i < j)%nat -> skipped_at i.
  Lemma mind_keeps d d' p j : keeps d d' -> kept_in_mind d p j -> kept_in_mind d' p j.
  Proof.
    intros K [R|(q & st & n & ln & H1 & H2 & H3 & H4 & H5)]; [left; exact R|]. right.
    destruct (proj1 K _ _ H3) as (st' & E' & S1 & S2 & _). exists q, st', n, ln. rewrite S1, S2. auto.
  Qed.
  Lemma capture_lazy d s st l p j b p' : dfa_good m d -> 1 <= s -> vget (dfa_states d) s = Some st -> (j <= length rest)%nat -> eat j l0 = Val l ->
    meets m (text j) (views st) -> kept_in_mind d p j ->
    capture_sim_state U d l s p = Val (b, p') -> kept_in_mind d p' (Datatypes.S j).
  Proof.
    intros DG Ls Es Lj E Co R H. unfold capture_sim_state in H. rewrite Es in H. cbn [unwrap obindo] in H.
    destruct (proj1 (proj2 DG) s st Ls Es) as (SG & _). destruct (d_accept st) eqn:Ea; inversion H; subst; clear H.
    - right. exists s, st, j, l. cbn. do 4 (split; [auto|]). split; [lia|]. do 4 (split; [auto|]). split; [auto|]. intros i Hi. lia.
    - assert (N : skipped_at j) by (eapply skipped_reject; eauto).
      destruct R as [(R1 & R2)|(q & st1 & n & ln & H1 & H2 & H3 & H4 & H5 & H6 & H7 & H8 & H9 & H10 & H11)].
      + left. split; [exact R1|]. intros i Hi. destruct (Nat.eq_dec i j) as [->|]; [exact N | apply R2; lia].
      + right. exists q, st1, n, ln. do 4 (split; [assumption|]). split; [lia|]. do 5 (split; [assumption|]).
        intros i Hi. destruct (Nat.eq_dec i j) as [->|]; [exact N | apply H11; lia].
  Qed.

  Notation rest_ordinary := (rest_ordinary cs k0 OC).
  (** nothing more comes *)
  Definition over (j : nat) : Prop := forall i, (j < i <= length rest)%nat -> skipped_at i.
  Lemma covers_nothing w c : LexCacheProofs.covers a m (w ++ [c]) [] -> forall k v, rule_matches a m k (w ++ [c] ++ v) ->
    ~ greedy_rule a m k /\ matched_before m (w ++ [c]) (Z.of_nat k + 1).
  Proof.
    intros (_ & C) k v M. apply matches_after in M. destruct M as (i & s & Af & _).
    assert (X : exists p, after a m (w ++ [c]) (Z.of_nat k + 1) p).
    { clear - Af FM. revert i Af. induction v as [|x v IH] using rev_ind; intros i Af; [rewrite app_nil_r in Af; eauto|].
      assert (G : forall p, after a m (w ++ [c] ++ v ++ [x]) (Z.of_nat k + 1) p -> exists q, after a m (w ++ [c] ++ v) (Z.of_nat k + 1) q).
      { intros p H. rewrite !app_assoc in H. apply (after_snoc a FM) in H. destruct H as (q & _ & _ & H & _). exists q. rewrite app_assoc. exact H. }
      destruct (G _ Af) as (q & H). clear - FM IH H. revert q H. clear IH.
      induction v as [|y v IH] using rev_ind; intros q H; [rewrite app_nil_r in H; eauto|].
      rewrite !app_assoc in H. apply (after_snoc a FM) in H. destruct H as (q' & _ & _ & H & _). eapply (IH q'). rewrite app_assoc. exact H. }
    destruct X as (p & A). destruct (C _ _ A) as [(d & [] & _)|(L & [(i0 & s0 & (d & [] & _) & _)|B])].
    split; [apply L; reflexivity | exact B].
  Qed.

  Notation viable := (LexTextProofs.viable a cs k0 m).
  Lemma exec_lazy fuel si n : forall d s symbol p l st j symbol' d' p' l', dfa_good m d -> 1 <= s -> vget (dfa_states d) s = Some st ->
    (j <= length rest)%nat -> eat j l0 = Val l -> meets m (text j) (views st) -> symbol = symbol_at j -> kept_in_mind d p (Datatypes.S j) ->
    exec_loop D U a sempred ctx_hash actions_hash configs_hash fuel n si d s symbol p l = Val (symbol', d', p', l') -> fits d' ->
    exists j', (j <= j' <= length rest)%nat /\ eat j' l0 = Val l' /\ symbol' = symbol_at j' /\ kept_in_mind d' p' (Datatypes.S j') /\ over j' /\
      (forall i, (j < i <= j')%nat -> viable i) /\
      ((j' < length rest)%nat -> viable (Datatypes.S j') -> exists i k, (i <= length rest)%nat /\ rule_matches a m k (text i)).
  Proof.
    induction n as [|n IH]; intros d s symbol p l st j symbol' d' p' l' DG Ls Es Lj E Co Hs R H F; [discriminate|].
    rewrite exec_loop_unfold in H. step H dt Ed. destruct dt as [[d1 to] l1].
    destruct (LexCacheProofs.next_ok D U a sempred ctx_hash actions_hash configs_hash FM RA NC _ _ _ _ _ _ _ _ _ _ _ DG Ls Es Ed) as (-> & G1 & K1 & Eg & S1 & Te).
    destruct (Z.eqb_spec to ERROR_DFA_STATE_REF) as [Eto|N].
    - inversion H; subst; clear H. exists j. split; [lia|]. split; [exact E|]. split; [reflexivity|]. split; [eapply mind_keeps; eauto|].
      split; [|split; [intros i Hi; lia|]].
      1: intros i Hi k M. 2: intros Lt (alt & p1 & Af). all: unfold LexTextProofs.symbol_at in *; destruct (nth_error rest j) as [c|] eqn:Ec; [|apply nth_error_None in Ec; lia].
      all: destruct Eg as [(_ & Eg)|(L1 & st1 & E1 & _)]; [|apply vget_lt in E1; unfold fits in F; unfold ERROR_DFA_STATE_REF in *; lia].
      all: assert (Cc := covers_edge a FM m _ _ _ _ (rest_ordinary _ _ Ec) (proj1 Co) Eg).
      + assert (Et : text i = text j ++ [c] ++ skipn (Datatypes.S j) (text i)).
        { rewrite app_assoc, <- (text_S cs k0 _ _ Ec). rewrite <- (firstn_skipn (Datatypes.S j) (text i)) at 1. f_equal.
          rewrite firstn_firstn. f_equal. lia. }
        rewrite Et in M. destruct (covers_nothing _ _ Cc k _ M) as (G & B). split; [exact G|]. rewrite <- (text_S cs k0 _ _ Ec) in B.
        destruct (before_text (Datatypes.S j) k ltac:(lia) B) as (n' & Ln & M'). exists n'. split; [lia | exact M'].
      + rewrite (text_S cs k0 _ _ Ec) in Af. destruct (proj2 Cc _ _ Af) as [(x & [] & _)|(_ & [(i0 & x & (y & [] & _) & _)|(kk & B)])].
        rewrite <- (text_S cs k0 _ _ Ec) in B. destruct B as (w1 & ch & w2 & -> & B).
        destruct (before_text (Datatypes.S j) kk ltac:(lia)) as (n' & Ln & M'); [exists kk, w1, ch, w2; auto|]. exists n', kk. split; [lia | exact M'].
    - destruct Eg as [(X & _)|(L1 & st1 & E1 & Eg & Ne)]; [congruence|].
      assert (Nsym : symbol <> EOF) by (intros X; apply N; auto).
      assert (Lt : (j < length rest)%nat). { destruct (Nat.eq_dec j (length rest)) as [X|X]; [|lia]. exfalso. apply Nsym. rewrite Hs. eapply sym_eof; eauto. }
      unfold LexTextProofs.symbol_at in Hs. destruct (nth_error rest j) as [c|] eqn:Ec; [|apply nth_error_None in Ec; lia]. subst c.
      destruct (Z.eqb_spec symbol EOF) as [X|_]; [contradiction|].
      step H l2 El. step H cp Ecp. destruct cp as [b p2]. rewrite andb_false_r in H. step H sy Esy.
      assert (E2 : eat (Datatypes.S j) l0 = Val l2) by (cbn [LexTextProofs.eat]; rewrite E; exact El).
      assert (Co2 : meets m (text (Datatypes.S j)) (views st1)).
      { rewrite (text_S cs k0 _ _ Ec). eapply (meets_edge D U a sempred ctx_hash actions_hash FM); [|eapply rest_ordinary; eauto | exact Co | exact Eg].
        apply (proj1 (proj2 DG) s st Ls Es). }
      assert (R2 : kept_in_mind d1 p2 (Datatypes.S (Datatypes.S j))).
      { apply (mind_keeps _ _ _ _ K1) in R. eapply capture_lazy; [exact G1 | exact L1 | exact E1 | lia | exact E2 | exact Co2 | exact R | exact Ecp]. }
      apply lift_val in Esy. rewrite (sym_read D U raw cs pos TS k0 l0 Here In0 _ _ E2) in Esy by lia. inversion Esy; subst sy.
      destruct (IH _ _ _ _ _ _ (Datatypes.S j) _ _ _ _ G1 L1 E1 ltac:(lia) E2 Co2 eq_refl R2 H F) as (j' & Lj' & H1 & H2 & H3 & H4 & H5 & H6).
      exists j'. split; [lia|]. do 4 (split; [assumption|]). split; [|exact H6]. intros i Hi. destruct (Nat.eq_dec i (Datatypes.S j)) as [->|]; [|apply H5; lia].
      destruct (views st1) as [|x xs] eqn:Ev; [congruence|]. destruct (proj1 (proj1 Co2) x (or_introl eq_refl)) as (q & _ & Af). exists (c_alt x), q. exact Af.
  Qed.

  Variable action : Z -> Z -> lexer -> lexer.
  Definition ends_lazy (r : match_result) (l' : lexer) : Prop :=
    (exists n k xs w' ex ln ty, token_of a m rest n k /\ (delimited a m k -> forall n', (n' < n)%nat -> ~ rule_matches a m k (text n')) /\ rule_has_type a m k ty /\ rule_matches_with a m k w' xs /\
       map bare (match ex with Some e => ex_actions e | None => [] end) = map bare xs /\ eat n l0 = Val ln /\ r = inl ty /\
       l' = match ex with Some e => execute U action e ln (is_index (lx_input U l0)) | None => ln end) \/
    (nothing_matches a m rest /\ exists j, (j <= length rest)%nat /\ eat j l0 = Val l' /\ (forall i, (0 < i <= j)%nat -> viable i) /\
       ((j < length rest)%nat -> ~ viable (Datatypes.S j)) /\
       r = if Nat.eqb (length rest) 0 then inl TOKEN_EOF else inr (LexerNoAltError (is_index (lx_input U l0)))).

  (** a rule that is skipped everywhere behind [n] matches no more than [n] characters in the first place *)
  Lemma skipped_down n : (forall i, (n < i <= length rest)%nat -> skipped_at i) ->
    forall i k, (n < i <= length rest)%nat -> rule_matches a m k (text i) -> ~ greedy_rule a m k /\ matches_within a m rest k n.
  Proof.
    intros S i. induction i as [i IH] using lt_wf_ind. intros k Li M. destruct (S i Li k M) as (G & j & Lj & M').
    split; [exact G|]. destruct (le_lt_dec j n) as [L|L]; [exists j; auto|]. apply (IH j Lj k ltac:(lia) M').
  Qed.
  Lemma skipped_all : (forall i, (i <= length rest)%nat -> skipped_at i) -> nothing_matches a m rest.
  Proof.
    intros S i k. induction i as [i IH] using lt_wf_ind. intros Li M. destruct (S i Li k M) as (_ & j & Lj & M'). apply (IH j Lj ltac:(lia) M').
  Qed.

  Lemma exec_atn_lazy fuel q d p st r d' p' l' : dfa_good m d -> 1 <= q -> vget (dfa_states d) q = Some st ->
    meets m [] (views st) -> sa_state p = None ->
    exec_atn D U a action sempred ctx_hash actions_hash configs_hash fuel (is_index (lx_input U l0)) q d p l0 = Val (r, d', p', l') -> fits d' ->
    ends_lazy r l'.
  Proof.
    intros DG Lq Eq Co Np H F. unfold exec_atn in H. step H cp Ec. destruct cp as [b p1]. step H sy Esy. step H lp El. destruct lp as [[[sy1 d1] p2] l1].
    step H rl Er. destruct rl as [r1 l2]. inversion H; subst; clear H.
    assert (R0 : kept_in_mind d p1 1).
    { eapply (capture_lazy d q st l0 p 0); [exact DG | exact Lq | exact Eq | lia | reflexivity | exact Co | left; split; [exact Np | intros i Hi; lia] | exact Ec]. }
    apply lift_val in Esy. rewrite (sym_read D U raw cs pos TS k0 l0 Here In0 0 l0 eq_refl) in Esy by lia. inversion Esy; subst sy.
    destruct (exec_loop_good D U a sempred ctx_hash actions_hash configs_hash FM RA NC _ _ _ _ _ _ _ _ _ _ _ _ _ _ DG Lq Eq El) as (DG' & _ & _).
    destruct (exec_lazy _ _ _ _ _ _ _ _ _ 0%nat _ _ _ _ DG Lq Eq ltac:(lia) eq_refl Co eq_refl R0 El F) as (j & Lj & E & -> & R & Ov & Vi & Vn).
    pose proof (rest_len cs k0) as RL. unfold fail_or_accept in Er.
    destruct R as [(R1 & R2)|(q1 & st1 & n & ln & H1 & H2 & H3 & H4 & H5 & H6 & H7 & H8 & H9 & H10 & H11)].
    - rewrite R1 in Er. right.
      assert (N : nothing_matches a m rest).
      { apply skipped_all. intros i Li. destruct (le_lt_dec i j) as [L|L]; [apply R2; lia | apply Ov; lia]. }
      split; [exact N|].
      assert (Vn' : (j < length rest)%nat -> ~ viable (Datatypes.S j)) by (intros L V; destruct (Vn L V) as (i & k & Li & M); exact (N i k Li M)).
      + exists j. split; [lia|]. assert (Ix : lx_input U l1 = IStream raw (pos (k0 + j))) by (eapply eat_input; eauto; lia).
        assert (Rr : (symbol_at j =? EOF) && (is_index (lx_input U l1) =? is_index (lx_input U l0)) = Nat.eqb (length rest) 0).
        { rewrite Ix, Here. cbn [is_index]. apply Bool.eq_true_iff_eq. rewrite andb_true_iff, !Z.eqb_eq, Nat.eqb_eq, (sym_eof D raw cs pos TS k0 In0 j) by lia. split.
          - intros (A & B). pose proof (pos_inj D raw cs pos TS (k0 + j) k0 ltac:(lia) ltac:(lia) B). lia.
          - intros Z0. assert (j = 0)%nat by lia. subst j. rewrite Nat.add_0_r. auto. }
        rewrite Rr in Er. destruct (Nat.eqb (length rest) 0); inversion Er; subst; split; auto.
    - rewrite H1 in Er. rewrite H3 in Er. cbn [unwrap obindo] in Er. inversion Er; subst; clear Er. left.
      destruct (proj1 (proj2 DG') _ _ H2 H3) as (SG & _).
      destruct (accept_sound D U a sempred ctx_hash actions_hash FM RA m _ st1 SG (proj1 H10) H4) as (k & xs & w' & M & Ty & Mw & Ex & _ & Fi & c & Ic & Ak).
      assert (Acc : accept U p' l1 = ln).
      { unfold accept. rewrite H7, H8, H9. rewrite (eat_here D U raw cs pos TS k0 l0 j l1) by (auto; lia).
        rewrite (eat_here D U raw cs pos TS k0 l0 n ln) at 4 by (auto; lia). cbn. unfold seek. cbn.
        rewrite (eat_input D U raw cs pos TS k0 l0 n ln) by (auto; lia). reflexivity. }
      exists n, k, xs, w', (d_exec st1), ln, (d_prediction st1). split; [|split; [|split; [auto|]]].
      + split; [lia|]. split; [exact M|]. split.
        * intros n' k' Ln M'. eapply skipped_down; [|exact Ln | exact M']. intros i Hi.
          destruct (le_lt_dec i j) as [L|L]; [apply H11; lia | apply Ov; lia].
        * intros k' Lk M'. destruct (Fi k' Lk M') as (G & B). split; [exact G|]. apply before_text; [lia | exact B].
      + intros De n' Ln M'. apply (proj2 H10 k De) with (c := c); [|exact Ic | exact Ak].
        destruct (skipn n' (text n)) as [|x w2] eqn:Ew.
        { apply (f_equal (@length Z)) in Ew. rewrite skipn_length, firstn_length_le in Ew by lia. cbn in Ew. lia. }
        exists k, (text n'), x, w2. split; [reflexivity|]. split; [|exact M']. rewrite <- Ew.
        rewrite <- (firstn_skipn n' (text n)) at 1. f_equal. rewrite firstn_firstn. f_equal. lia.
      + split; [exact Mw|]. split; [destruct (d_exec st1); exact Ex|]. split; [exact H6|]. split; [reflexivity|].
        rewrite Acc. reflexivity.
  Qed.

  Lemma match_lazy fuel s r l' s' : sim_good D U a sempred ctx_hash actions_hash configs_hash s -> item (mode_to_start_state a) m <> None ->
    match_token D U a action sempred ctx_hash actions_hash configs_hash fuel m l0 s = Val (r, l', s') -> cache_fits s' -> ends_lazy r l'.
  Proof.
    intros (Len & G) Mo H F. unfold match_token in H. destruct (vget (sm_dfas s) m) as [d|] eqn:Ed.
    2: { exfalso. unfold item in Mo. unfold vget in Ed. destruct (m <? 0); [congruence|]. apply nth_error_None in Ed.
         apply nth_error_Some in Mo. lia. }
    step H rd Er. destruct rd as [[[r1 d1] p1] l1]. step H dfas Ev. inversion H; subst; clear H.
    assert (Ev' : vset (sm_dfas s) m d1 = Some dfas) by (destruct (vset (sm_dfas s) m d1); cbn in Ev; congruence).
    destruct (vset_ok _ _ _ _ Ev') as (_ & _ & Get).
    assert (F1 : fits d1).
    { apply F. cbn [sm_dfas]. specialize (Get m). rewrite Z.eqb_refl in Get. unfold vget in Get. destruct (m <? 0); [discriminate|]. eapply nth_error_In; eauto. }
    destruct (s0 d) as [q|] eqn:E0.
    - destruct (G _ _ Ed) as (A & B & C & E). destruct (E q E0) as (Lq & st & Eq & Co). eapply exec_atn_lazy; [exact (G _ _ Ed) | exact Lq | exact Eq | apply meets_start, Co | | exact Er | exact F1]. reflexivity.
    - unfold match_atn in Er. rewrite vget_item in Er. destruct (item (mode_to_start_state a) m) as [ms|] eqn:Em; [|congruence].
      destruct (mode_state a FM _ _ Em) as (st & Est). rewrite (state_of_ok a _ _ Est) in Er. cbn [obindo] in Er.
      step Er cl Ecl. destruct cl as [c0 l2].
      destruct (match_start_total D U a sempred ctx_hash actions_hash configs_hash FM RA NC _ _ _ _ _ _ _ _ (G _ _ Ed) E0 Em Est Ecl) as (d2 & q & st2 & -> & E2 & Sm & G2 & K2 & Lq & Vq & Co).
      rewrite E2 in Er. cbn [obindo] in Er. rewrite Sm in Er. eapply exec_atn_lazy; [exact G2 | exact Lq | exact Vq | apply meets_start, Co | | exact Er | exact F1]. reflexivity.
  Qed.
End Lazy.
