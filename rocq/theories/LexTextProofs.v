(** Proofs about lexer matching, continued: what is matched in a text (C33, C34, C35). *)
From Coq Require Import ZArith List Sorted Bool Lia.
From Coq Require Import ZifyBool ZifyNat.
From Verif Require Import Outcome CharStreamModel CharStreamSpec CharStreamProofs PredContextModel SemContextModel
  ConfigSetModel ConfigSetProofs DfaModel DfaProofs AtnModel AtnSpec AtnProofs Ll1Spec LexerModel LexerSpec LexerProofs
  LexMatchSpec LexMatchProofs LexCacheProofs.
Import ListNotations.
Local Open Scope Z_scope.
Local Open Scope outcome_scope.

Section Text.
  Variable D : input_data.
  Variable U : Type.
  Variable a : atn.
  Variable sempred : Z -> Z -> lexer U -> bool * lexer U.
  Variable ctx_hash : pctx -> Z.
  Variable actions_hash : list lexer_action -> Z.
  Variable configs_hash : list (config hashed) -> Z.
  Hypothesis FM : lexer_formed a.
  Hypothesis RA : rules_apart a.
  Hypothesis NC : no_collisions D U a sempred ctx_hash actions_hash configs_hash.
  Notation lexer := (lexer U).
  Notation views st := (configs (d_configs st)).
  Notation covers := (LexCacheProofs.covers a).
  Notation dfa_good := (dfa_good D U a sempred ctx_hash actions_hash configs_hash).
  Notation state_good := (state_good D U a sempred ctx_hash actions_hash).
  Notation list_good := (list_good D U a sempred ctx_hash actions_hash).

  (** ** A rule keeps its number *)
  Definition bottom (p : position) : Z := last (snd p) (fst p).
  Definition off_modes (p : position) : Prop := ~ In (fst p) (mode_to_start_state a) /\ Forall (fun f => ~ In f (mode_to_start_state a)) (snd p).
  Lemma last_cons {A} (x y : A) l : last (x :: l) y = last l x.
  Proof. revert x y. induction l as [|z l IH]; intros x y; [reflexivity|]. change (last (x :: z :: l) y) with (last (z :: l) y). rewrite !IH. reflexivity. Qed.
  Lemma last_default {A} (x y : A) l : l <> [] -> last l x = last l y.
  Proof. destruct l as [|z l]; [congruence|]. intros _. rewrite !last_cons. reflexivity. Qed.
  Lemma rule_of_at i s : state_at a i = Some s -> rule_of a i = st_rule s.
  Proof. intros E. unfold rule_of. rewrite E. reflexivity. Qed.

  Lemma quiet_bottom p xs q : off_modes p -> quiet_step a p xs q -> off_modes q /\ rule_of a (bottom q) = rule_of a (bottom p).
  Proof.
    intros (O1 & O2) S.
    assert (Same : forall i st s t, state_at a i = Some s -> ~ is_stop s -> In t (st_trans s) -> (forall f r p g, t <> RuleTr g f r p) ->
      ~ In i (mode_to_start_state a) -> Forall (fun f => ~ In f (mode_to_start_state a)) st ->
      off_modes (get_target t, st) /\ rule_of a (bottom (get_target t, st)) = rule_of a (bottom (i, st))).
    { clear - RA. intros i st s t E N I Nr O1 O2. destruct (proj1 RA i s t E N I) as (O & M). split; [split; auto|].
      unfold bottom. cbn [fst snd]. destruct st as [|f st]; [|rewrite !last_cons; reflexivity]. cbn [last]. rewrite (rule_of_at _ _ E).
      destruct t; auto. exfalso. eapply Nr. reflexivity. }
    destruct S as [i st s g n E N I|i st s g f r p E N I|i f st s E N|i s g d r k p x E N I X|i f st s g d r k p E N I]; cbn [fst snd] in *.
    - change g with (get_target (Epsilon g n)). eapply Same; eauto. discriminate.
    - destruct (proj1 RA i s _ E N I) as (O & Of & M). split; [split; cbn; auto|]. unfold bottom. cbn [fst snd]. rewrite last_cons.
      destruct st as [|f' st]; [|rewrite !last_cons; reflexivity]. cbn [last]. rewrite (rule_of_at _ _ E). auto.
    - inversion O2; subst. split; [split; auto|]. unfold bottom. cbn [fst snd]. rewrite last_cons. reflexivity.
    - change g with (get_target (Action g d r k p)). eapply Same; eauto. discriminate.
    - change g with (get_target (Action g d r k p)). eapply Same; eauto. discriminate.
  Qed.
  Lemma char_bottom p c q : off_modes p -> char_step a p c q -> off_modes q /\ rule_of a (bottom q) = rule_of a (bottom p).
  Proof.
    intros (O1 & O2) S. destruct S as [i st s t c E N I Sy]. cbn [fst snd] in *. destruct (proj1 RA i s t E N I) as (O & M).
    split; [split; auto|]. unfold bottom. cbn [fst snd]. destruct st as [|f st]; [|rewrite !last_cons; reflexivity]. cbn [last].
    rewrite (rule_of_at _ _ E). destruct t; auto. cbn in Sy. contradiction.
  Qed.
  Lemma run_bottom p w xs q : off_modes p -> run a p w xs q -> off_modes q /\ rule_of a (bottom q) = rule_of a (bottom p).
  Proof.
    intros O R. induction R as [|w xs q ys r R IH S|w xs q c r R IH S]; [auto| |].
    - destruct IH as (O' & E'). destruct (quiet_bottom _ _ _ O' S). split; [auto | congruence].
    - destruct IH as (O' & E'). destruct (char_bottom _ _ _ O' S). split; [auto | congruence].
  Qed.
  Lemma begins_off m k q : rule_begins a m k q -> off_modes (q, []).
  Proof.
    intros (ms & s & t & Em & Es & Et & ->). split; [|constructor]. cbn [fst].
    assert (I : In ms (mode_to_start_state a)). { unfold item in Em. destruct (m <? 0); [discriminate|]. eapply nth_error_In; eauto. }
    apply FM in I. destruct I as (_ & N). destruct (proj1 RA ms s t Es (N _ Es) (nth_error_In _ _ Et)) as (O & _). exact O.
  Qed.
  Lemma begins_det m k q q' : rule_begins a m k q -> rule_begins a m k q' -> q = q'.
  Proof. intros (ms & s & t & Em & Es & Et & ->) (ms' & s' & t' & Em' & Es' & Et' & ->). congruence. Qed.

  (** ** What an accepting state stands for *)
  Lemma sorted_split (l r : list lconfig) c d : StronglySorted (fun c d : lconfig => c_alt c <= c_alt d) (l ++ c :: r) -> In d r -> c_alt c <= c_alt d.
  Proof.
    induction l as [|e l IH]; cbn [app]; intros S I; inversion S as [|e0 l0 S' F]; subst; [|eauto].
    rewrite Forall_forall in F. auto.
  Qed.
  Lemma accept_sound m w st : state_good m st -> covers m w (views st) -> d_accept st = true ->
    exists k xs w', rule_matches a m k w /\ rule_has_type a m k (d_prediction st) /\ rule_matches_with a m k w' xs /\
      match d_exec st with None => [] | Some e => map bare (ex_actions e) end = map bare xs /\
      (greedy a -> first_rule a m w k) /\
      (forall k', (k' < k)%nat -> rule_matches a m k' w -> ~ greedy_rule a m k' /\ LexCacheProofs.matched_before a m w (Z.of_nat k' + 1)) /\
      exists c, In c (views st) /\ c_alt c = Z.of_nat k + 1.
  Proof.
    intros (LG & Ac) Cov Acc. assert (Cov' := Cov). destruct Cov' as (So & Co). destruct LG as (Ar & Srt & _ & _).
    destruct (stop_total a m _ Ar) as (o & Eo & Ho). rewrite Eo in Ac. destruct o as [c|]; [|congruence].
    destruct Ho as (l & r & s & Ev & Es & St & Before). destruct Ac as (_ & Ex & s1 & Es1 & Ty). rewrite Es in Es1. inversion Es1; subst s1.
    assert (Ic : In c (views st)) by (rewrite Ev; apply in_elt).
    destruct (So c Ic) as (p & Cp & Af). assert (K := Af). destruct K as (k & q & ys & B & Ak & R & (s2 & Es2 & Kp)).
    assert (Fp : fst p = c_state c) by (destruct Cp; auto). rewrite Fp, Es in Es2. inversion Es2; subst s2.
    destruct Kp as [(_ & Sp)|(N & _)]; [|contradiction]. destruct p as [i stk]. cbn in Fp, Sp. subst i stk.
    rewrite Forall_forall in Ar. destruct (Ar c Ic) as (_ & k' & q' & w' & xs & p' & B' & Ak' & R' & Cp' & Xs).
    assert (k' = k) by lia. subst k'. rewrite (cfg_same _ _ _ Cp' Cp) in R'.
    assert (M : rule_matches a m k w) by (exists ys, q, (c_state c), s; auto).
    assert (No : forall k2, (k2 < k)%nat -> ~ accepted a (views st) (Z.of_nat k2 + 1)).
    { intros k2 L2 (i2 & s2 & (d & Hd & Cd & Ad) & E2 & St2). assert (Fd : c_state d = i2) by (destruct Cd; auto). subst i2.
      rewrite Ev in Hd. apply in_app_or in Hd. destruct Hd as [Hd|[<-|Hd]].
      + eapply Before; eauto.
      + lia.
      + rewrite Ev in Srt. pose proof (sorted_split _ _ _ _ Srt Hd). lia. }
    exists k, xs, w'. split; [exact M|]. split; [|split; [|split; [|split; [|split]]]].
    - exists q. split; [exact B|]. destruct (run_bottom _ _ _ _ (begins_off _ _ _ B) R) as (_ & Eb). cbn in Eb. unfold bottom in Eb. cbn in Eb.
      rewrite <- Eb, (rule_of_at _ _ Es). exact Ty.
    - exists q', (c_state c), s. auto.
    - rewrite Ex. unfold acts in Xs. exact Xs.
    - intros G. split; [exact M|]. intros k2 L2 M2. apply matches_after in M2. destruct M2 as (i2 & s2 & Af2 & E2 & St2).
      apply (No k2 L2). exists i2, s2. split; [|auto]. eapply covers_all; eauto.
    - intros k2 L2 M2. apply matches_after in M2. destruct M2 as (i2 & s2 & Af2 & E2 & St2).
      destruct (Co _ _ Af2) as [X|(L & [X|X])]; [|exfalso; exact (No k2 L2 X)|split; [apply L; reflexivity | exact X]].
      exfalso. apply (No k2 L2). exists i2, s2. auto.
    - exists c. auto.
  Qed.
  (** what a state that does not accept tells, non-greedy rules or not *)
  Lemma reject_lazy m w st : state_good m st -> covers m w (views st) -> d_accept st = false ->
    forall k, rule_matches a m k w -> ~ greedy_rule a m k /\ LexCacheProofs.matched_before a m w (Z.of_nat k + 1).
  Proof.
    intros (LG & Ac) (So & Co) Acc k M. destruct LG as (Ar & _). destruct (stop_total a m _ Ar) as (o & Eo & Ho). rewrite Eo in Ac.
    destruct o as [c|]; [destruct Ac; congruence|]. apply matches_after in M. destruct M as (i & s & Af & E & St).
    assert (No : ~ accepted a (views st) (Z.of_nat k + 1)).
    { intros (i2 & s2 & (d & Hd & Cd & Ad) & E2 & St2). assert (Fd : c_state d = i2) by (destruct Cd; auto). subst i2. eapply Ho; eauto. }
    destruct (Co _ _ Af) as [X|(L & [X|X])]; [|contradiction|split; [apply L; reflexivity | exact X]].
    exfalso. apply No. exists i, s. auto.
  Qed.
  Lemma reject_sound m w st : greedy a -> state_good m st -> covers m w (views st) -> d_accept st = false -> forall k, ~ rule_matches a m k w.
  Proof.
    intros G (LG & Ac) Cov Acc k M. destruct LG as (Ar & _). destruct (stop_total a m _ Ar) as (o & Eo & Ho). rewrite Eo in Ac.
    destruct o as [c|]; [destruct Ac; congruence|]. apply matches_after in M. destruct M as (i & s & Af & E & St).
    destruct (covers_all a m w _ Cov G _ _ Af) as (d & Hd & Cd & Ad). assert (Fd : c_state d = i) by (destruct Cd; auto). subst i. eapply Ho; eauto.
  Qed.

  (** ** Eating characters *)
  Fixpoint eat (n : nat) (l : lexer) : outcome lexer :=
    match n with O => Val l | Datatypes.S n => let! l := eat n l in sim_consume D U l end.
  Variables raw cs : list Z.
  Variable pos : nat -> Z.
  Hypothesis TS : text_source D raw cs pos.

  Lemma consume_one k l : lx_input U l = IStream raw (pos k) -> (k < length cs)%nat ->
    exists l', sim_consume D U l = Val l' /\ l' = with_pos U (with_input U l (IStream raw (pos (Datatypes.S k)))) (lx_line U l') (lx_column U l').
  Proof.
    intros Hi Hlt. assert (Hk : (k <= length cs)%nat) by lia. destruct (nth_error cs k) as [c|] eqn:Ec; [|apply nth_error_None in Ec; lia].
    unfold sim_consume. rewrite Hi, (la_here D raw cs pos TS k Hk), Ec. cbn [lift obindo].
    assert (Ei : lx_input U (if c =? NEWLINE then with_pos U l (lx_line U l + 1) 0 else with_pos U l (lx_line U l) (lx_column U l + 1)) = IStream raw (pos k))
      by (destruct (c =? NEWLINE); cbn; assumption).
    rewrite Ei, (consume_at D raw cs pos (source_presents _ _ _ _ TS)) by lia. cbn [lift obindo].
    eexists. split; [reflexivity|]. destruct (c =? NEWLINE); destruct l; reflexivity.
  Qed.
  Lemma eat_ok k l n : lx_input U l = IStream raw (pos k) -> (k + n <= length cs)%nat ->
    exists ln, eat n l = Val ln /\ ln = with_pos U (with_input U l (IStream raw (pos (k + n)))) (lx_line U ln) (lx_column U ln).
  Proof.
    induction n as [|n IH]; intros Hi Hk.
    - exists l. split; [reflexivity|]. rewrite Nat.add_0_r, <- Hi. destruct l; reflexivity.
    - destruct (IH Hi ltac:(lia)) as (l1 & E1 & S1).
      destruct (consume_one (k + n) l1) as (l2 & E2 & S2); [rewrite S1; reflexivity | lia|]. exists l2. cbn [eat]. rewrite E1. cbn [obindo]. split; [exact E2|].
      rewrite S2 at 1. rewrite S1 at 1. replace (k + Datatypes.S n)%nat with (Datatypes.S (k + n)) by lia. reflexivity.
  Qed.
  Lemma eat_here k l n ln : lx_input U l = IStream raw (pos k) -> (k + n <= length cs)%nat -> eat n l = Val ln ->
    ln = with_pos U (with_input U l (IStream raw (pos (k + n)))) (lx_line U ln) (lx_column U ln).
  Proof. intros H1 H2 H3. destruct (eat_ok k l n H1 H2) as (l1 & E1 & S1). congruence. Qed.
  Lemma eat_input k l n ln : lx_input U l = IStream raw (pos k) -> (k + n <= length cs)%nat -> eat n l = Val ln -> lx_input U ln = IStream raw (pos (k + n)).
  Proof. intros H1 H2 H3. rewrite (eat_here k l n ln H1 H2 H3). reflexivity. Qed.

  Variable k0 : nat.
  Variable l0 : lexer.
  Hypothesis Here : lx_input U l0 = IStream raw (pos k0).
  Hypothesis In0 : (k0 <= length cs)%nat.
  Notation rest := (skipn k0 cs).
  Notation text n := (firstn n (skipn k0 cs)).
  Definition symbol_at (j : nat) : Z := match nth_error rest j with Some c => c | None => EOF end.

  Lemma rest_len : length rest = (length cs - k0)%nat.
  Proof. apply skipn_length. Qed.
  Lemma nth_rest j : nth_error rest j = nth_error cs (k0 + j).
  Proof.
    clear - cs. revert cs. induction k0 as [|k IH]; intros c; [reflexivity|]. destruct c as [|x c]; [destruct j; reflexivity | apply IH].
  Qed.
  Lemma sym_read j l : eat j l0 = Val l -> (j <= length rest)%nat -> la D (lx_input U l) 1 = Ok (symbol_at j).
  Proof.
    intros E L. rewrite rest_len in L. rewrite (eat_input k0 l0 j l Here ltac:(lia) E), (la_here D raw cs pos TS) by lia. unfold symbol_at. rewrite nth_rest. reflexivity.
  Qed.
  Lemma sym_eof j : (j <= length rest)%nat -> symbol_at j = EOF <-> j = length rest.
  Proof.
    intros L. unfold symbol_at. destruct (nth_error rest j) as [c|] eqn:E.
    - split; [intros ->|intros ->]; exfalso.
      + rewrite nth_rest in E. eapply char_not_eof; eauto.
      + assert (length rest < length rest)%nat by (apply nth_error_Some; congruence). lia.
    - apply nth_error_None in E. split; [intros _; lia | auto].
  Qed.
  Lemma text_S j c : nth_error rest j = Some c -> text (Datatypes.S j) = text j ++ [c].
  Proof. apply firstn_S_nth. Qed.

  Variable m : Z.
  Definition none_at (i : nat) : Prop := forall k, ~ rule_matches a m k (text i).
  Definition viable (i : nat) : Prop := exists alt p, after a m (text i) alt p.
  (** the accepting state remembered after [j] characters *)
  Definition remembered (d : ldfa) (p : sim_state) (j : nat) : Prop :=
    (sa_state p = None /\ forall i, (i <= j)%nat -> none_at i) \/
    exists q st n ln, sa_state p = Some q /\ 1 <= q /\ vget (dfa_states d) q = Some st /\ d_accept st = true /\ (n <= j)%nat /\
      eat n l0 = Val ln /\ sa_index p = is_index (lx_input U ln) /\ sa_line p = lx_line U ln /\ sa_column p = lx_column U ln /\
      covers m (text n) (views st) /\ forall i, (n < i <= j)%nat -> none_at i.
  Lemma remembered_keeps d d' p j : keeps d d' -> remembered d p j -> remembered d' p j.
  Proof.
    intros K [R|(q & st & n & ln & H1 & H2 & H3 & H4 & H5)]; [left; exact R|]. right.
    destruct (proj1 K _ _ H3) as (st' & E' & S1 & S2 & _). exists q, st', n, ln. rewrite S1, S2. auto.
  Qed.
  Definition fits (d : ldfa) : Prop := Z.of_nat (length (dfa_states d)) < 2 ^ 64 - 1.

  Hypothesis GR : greedy a.
  Lemma capture_text d s st l p j b p' : dfa_good m d -> 1 <= s -> vget (dfa_states d) s = Some st -> eat j l0 = Val l ->
    covers m (text j) (views st) ->
    ((sa_state p = None /\ forall i, (i < j)%nat -> none_at i) \/
     exists q st n ln, sa_state p = Some q /\ 1 <= q /\ vget (dfa_states d) q = Some st /\ d_accept st = true /\ (n <= j)%nat /\
      eat n l0 = Val ln /\ sa_index p = is_index (lx_input U ln) /\ sa_line p = lx_line U ln /\ sa_column p = lx_column U ln /\
      covers m (text n) (views st) /\ forall i, (n < i < j)%nat -> none_at i) ->
    capture_sim_state U d l s p = Val (b, p') -> remembered d p' j.
  Proof.
    intros DG Ls Es E Co R H. unfold capture_sim_state in H. rewrite Es in H. cbn [unwrap obindo] in H.
    destruct (proj1 (proj2 DG) s st Ls Es) as (SG & _). destruct (d_accept st) eqn:Ea; inversion H; subst; clear H.
    - right. exists s, st, j, l. cbn. do 9 (split; [auto|]). split; [auto|]. intros i Hi. lia.
    - assert (N : none_at j) by (intros k; eapply reject_sound; eauto).
      destruct R as [(R1 & R2)|(q & st1 & n & ln & H1 & H2 & H3 & H4 & H5 & H6 & H7 & H8 & H9 & H10 & H11)].
      + left. split; [exact R1|]. intros i Hi. destruct (Nat.eq_dec i j) as [->|]; [exact N | apply R2; lia].
      + right. exists q, st1, n, ln. do 10 (split; [assumption|]). intros i Hi. destruct (Nat.eq_dec i j) as [->|]; [exact N | apply H11; lia].
  Qed.

  Hypothesis OC : Forall ordinary_char cs.
  Lemma rest_ordinary j c : nth_error rest j = Some c -> ordinary_char c.
  Proof. rewrite nth_rest. intros H. apply nth_error_In in H. rewrite Forall_forall in OC. auto. Qed.

  Lemma fits_keeps d d' : keeps d d' -> fits d' -> fits d.
  Proof. intros (_ & L & _). unfold fits. lia. Qed.

  Lemma exec_text fuel si n : forall d s symbol p l st j symbol' d' p' l', dfa_good m d -> 1 <= s -> vget (dfa_states d) s = Some st ->
    (j <= length rest)%nat -> eat j l0 = Val l -> covers m (text j) (views st) -> symbol = symbol_at j -> remembered d p j ->
    exec_loop D U a sempred ctx_hash actions_hash configs_hash fuel n si d s symbol p l = Val (symbol', d', p', l') -> fits d' ->
    exists j', (j <= j' <= length rest)%nat /\ eat j' l0 = Val l' /\ symbol' = symbol_at j' /\ remembered d' p' j' /\
      (forall i, (j < i <= j')%nat -> viable i) /\ ((j' < length rest)%nat -> ~ viable (Datatypes.S j')).
  Proof.
    induction n as [|n IH]; intros d s symbol p l st j symbol' d' p' l' DG Ls Es Lj E Co Hs R H F; [discriminate|].
    rewrite exec_loop_unfold in H. step H dt Ed. destruct dt as [[d1 to] l1].
    destruct (LexCacheProofs.next_ok D U a sempred ctx_hash actions_hash configs_hash FM RA NC _ _ _ _ _ _ _ _ _ _ _ DG Ls Es Ed) as (-> & G1 & K1 & Eg & S1 & Te).
    destruct (Z.eqb_spec to ERROR_DFA_STATE_REF) as [Eto|N].
    - inversion H; subst; clear H. exists j. split; [lia|]. split; [exact E|]. split; [reflexivity|]. split; [eapply remembered_keeps; eauto|].
      split; [intros i Hi; lia|]. intros Lt (alt & q & Af). unfold symbol_at in *. destruct (nth_error rest j) as [c|] eqn:Ec; [|apply nth_error_None in Ec; lia].
      rewrite (text_S _ _ Ec) in Af. destruct Eg as [(_ & Eg)|(L1 & st1 & E1 & _)].
      + destruct (covers_all a m _ _ (covers_edge a FM m _ _ _ _ (rest_ordinary _ _ Ec) Co Eg) GR _ _ Af) as (x & [] & _).
      + apply vget_lt in E1. unfold fits in F. unfold ERROR_DFA_STATE_REF in *. lia.
    - destruct Eg as [(X & _)|(L1 & st1 & E1 & Eg & Ne)]; [congruence|].
      assert (Nsym : symbol <> EOF) by (intros X; apply N; auto).
      assert (Lt : (j < length rest)%nat). { destruct (Nat.eq_dec j (length rest)) as [X|X]; [|lia]. exfalso. apply Nsym. rewrite Hs. apply sym_eof; auto. }
      unfold symbol_at in Hs. destruct (nth_error rest j) as [c|] eqn:Ec; [|apply nth_error_None in Ec; lia]. subst c.
      destruct (Z.eqb_spec symbol EOF) as [X|_]; [contradiction|].
      step H l2 El. step H cp Ecp. destruct cp as [b p2]. rewrite andb_false_r in H. step H sy Esy.
      assert (E2 : eat (Datatypes.S j) l0 = Val l2) by (cbn [eat]; rewrite E; exact El).
      assert (Co2 : covers m (text (Datatypes.S j)) (views st1)).
      { rewrite (text_S _ _ Ec). eapply covers_edge; eauto. eapply rest_ordinary; eauto. }
      assert (R2 : remembered d1 p2 (Datatypes.S j)).
      { apply (remembered_keeps _ _ _ _ K1) in R. eapply capture_text; [exact G1 | exact L1 | exact E1 | exact E2 | exact Co2 | | exact Ecp].
        destruct R as [(R1 & R2)|(q & st2 & n2 & ln & H1 & H2 & H3 & H4 & H5 & H6 & H7 & H8 & H9 & H10 & H11)].
        - left. split; [exact R1|]. intros i Hi. apply R2. lia.
        - right. exists q, st2, n2, ln. do 4 (split; [assumption|]). split; [lia|]. do 5 (split; [assumption|]). intros i Hi. apply H11. lia. }
      apply lift_val in Esy. rewrite (sym_read _ _ E2) in Esy by lia. inversion Esy; subst sy.
      destruct (IH _ _ _ _ _ _ (Datatypes.S j) _ _ _ _ G1 L1 E1 ltac:(lia) E2 Co2 eq_refl R2 H F) as (j' & Lj' & H1 & H2 & H3 & H4 & H5).
      exists j'. split; [lia|]. do 3 (split; [assumption|]). split; [|assumption]. intros i Hi. destruct (Nat.eq_dec i (Datatypes.S j)) as [->|]; [|apply H4; lia].
      destruct (views st1) as [|x xs] eqn:Ev; [congruence|]. destruct (proj1 Co2 x (or_introl eq_refl)) as (q & _ & Af). exists (c_alt x), q. exact Af.
  Qed.

  Variable action : Z -> Z -> lexer -> lexer.
  (** the outcome of a match, independent of the cache *)
  Definition ends (r : match_result) (l' : lexer) : Prop :=
    (exists n k xs w' ex ln ty, longest_match a m rest n /\ first_rule a m (text n) k /\ rule_has_type a m k ty /\ rule_matches_with a m k w' xs /\
       map bare (match ex with Some e => ex_actions e | None => [] end) = map bare xs /\ eat n l0 = Val ln /\ r = inl ty /\
       l' = match ex with Some e => execute U action e ln (is_index (lx_input U l0)) | None => ln end) \/
    (nothing_matches a m rest /\ exists j, (j <= length rest)%nat /\ eat j l0 = Val l' /\ (forall i, (0 < i <= j)%nat -> viable i) /\
       ((j < length rest)%nat -> ~ viable (Datatypes.S j)) /\
       r = if Nat.eqb (length rest) 0 then inl TOKEN_EOF else inr (LexerNoAltError (is_index (lx_input U l0)))).

  Lemma viable_prefix i j : (i <= j)%nat -> viable j -> exists q, exists k b xs, rule_begins a m k b /\ run a (b, []) (text i) xs q.
  Proof.
    intros L (alt & p & k & b & xs & B & _ & R & _). replace (text j) with (text i ++ skipn i (text j)) in R.
    - destruct (run_prefix a _ _ _ _ _ R) as (ys & q & R'). exists q, k, b, ys. auto.
    - rewrite <- (firstn_skipn i (text j)) at 2. f_equal. rewrite firstn_firstn. f_equal. lia.
  Qed.
  Lemma matches_viable k i : rule_matches a m k (text i) -> viable i.
  Proof. intros M. apply matches_after in M. destruct M as (x & s & Af & _). eexists. eexists. exact Af. Qed.
  Lemma viable_S j : (Datatypes.S j <= length rest)%nat -> viable (Datatypes.S j) -> viable j.
  Proof.
    intros L (alt & p & Af). destruct (nth_error rest j) as [c|] eqn:Ec; [|apply nth_error_None in Ec; lia].
    rewrite (text_S _ _ Ec) in Af. apply after_snoc in Af; [|exact FM]. destruct Af as (q & q' & xs & Af & _). eexists. eexists. exact Af.
  Qed.
  Lemma viable_down i j : (i <= j <= length rest)%nat -> viable j -> viable i.
  Proof.
    intros (L1 & L2). revert L2. induction L1 as [|j L1 IH]; intros L2 V; [exact V|]. apply IH; [lia|]. apply viable_S; auto.
  Qed.
  Lemma stopped j : (j <= length rest)%nat -> ((j < length rest)%nat -> ~ viable (Datatypes.S j)) ->
    forall i, (j < i <= length rest)%nat -> none_at i.
  Proof. intros L N i Hi k M. apply matches_viable in M. eapply N; [lia|]. eapply viable_down; [|exact M]. lia. Qed.

  Lemma exec_atn_text fuel q d p st r d' p' l' : dfa_good m d -> 1 <= q -> vget (dfa_states d) q = Some st ->
    covers m [] (views st) -> sa_state p = None ->
    exec_atn D U a action sempred ctx_hash actions_hash configs_hash fuel (is_index (lx_input U l0)) q d p l0 = Val (r, d', p', l') -> fits d' ->
    ends r l'.
  Proof.
    intros DG Lq Eq Co Np H F. unfold exec_atn in H. step H cp Ec. destruct cp as [b p1]. step H sy Esy. step H lp El. destruct lp as [[[sy1 d1] p2] l1].
    step H rl Er. destruct rl as [r1 l2]. inversion H; subst; clear H.
    assert (R0 : remembered d p1 0).
    { eapply capture_text; [exact DG | exact Lq | exact Eq | reflexivity | exact Co | left; split; [exact Np | intros i Hi; lia] | exact Ec]. }
    apply lift_val in Esy. rewrite (sym_read 0 l0 eq_refl) in Esy by lia. inversion Esy; subst sy.
    destruct (exec_loop_good D U a sempred ctx_hash actions_hash configs_hash FM RA NC _ _ _ _ _ _ _ _ _ _ _ _ _ _ DG Lq Eq El) as (DG' & _ & _).
    destruct (exec_text _ _ _ _ _ _ _ _ _ 0%nat _ _ _ _ DG Lq Eq ltac:(lia) eq_refl Co eq_refl R0 El F) as (j & Lj & E & -> & R & V & Nv).
    assert (St := stopped j (proj2 Lj) Nv). unfold fail_or_accept in Er.
    destruct R as [(R1 & R2)|(q1 & st1 & n & ln & H1 & H2 & H3 & H4 & H5 & H6 & H7 & H8 & H9 & H10 & H11)].
    - rewrite R1 in Er. right. split.
      + intros i k Li. destruct (le_lt_dec i j) as [L|L]; [apply R2; lia | apply St; lia].
      + exists j. split; [lia|]. assert (Ix : lx_input U l1 = IStream raw (pos (k0 + j))) by (eapply eat_input; eauto; pose proof rest_len; lia).
        assert (Rr : (symbol_at j =? EOF) && (is_index (lx_input U l1) =? is_index (lx_input U l0)) = Nat.eqb (length rest) 0).
        { rewrite Ix, Here. cbn [is_index]. apply Bool.eq_true_iff_eq. rewrite andb_true_iff, !Z.eqb_eq, Nat.eqb_eq, (sym_eof j) by lia. split.
          - intros (A & B). pose proof rest_len. pose proof (pos_inj D raw cs pos TS (k0 + j) k0 ltac:(lia) ltac:(lia) B). lia.
          - intros Z0. assert (j = 0)%nat by lia. subst j. rewrite Nat.add_0_r. auto. }
        rewrite Rr in Er. destruct (Nat.eqb (length rest) 0); inversion Er; subst; auto 10.
    - rewrite H1 in Er. rewrite H3 in Er. cbn [unwrap obindo] in Er. inversion Er; subst; clear Er. left.
      destruct (proj1 (proj2 DG') _ _ H2 H3) as (SG & _).
      destruct (accept_sound m _ st1 SG H10 H4) as (k & xs & w' & M & Ty & Mw & Ex & Fi & _).
      assert (Acc : accept U p' l1 = ln).
      { unfold accept. rewrite H7, H8, H9. rewrite (eat_here k0 l0 j l1) by (auto; pose proof rest_len; lia).
        rewrite (eat_here k0 l0 n ln) at 4 by (auto; pose proof rest_len; lia). cbn. unfold seek. cbn.
        rewrite (eat_input k0 l0 n ln) by (auto; pose proof rest_len; lia). reflexivity. }
      exists n, k, xs, w', (d_exec st1), ln, (d_prediction st1). split; [|split; [auto|]].
      + split; [lia|]. split; [eauto|]. intros i k' Hi. destruct (le_lt_dec i j) as [L|L]; [apply H11; lia | apply St; lia].
      + split; [exact Ty|]. split; [exact Mw|]. split; [destruct (d_exec st1); exact Ex|]. split; [exact H6|]. split; [reflexivity|].
        rewrite Acc. reflexivity.
  Qed.

  Lemma match_text fuel s r l' s' : sim_good D U a sempred ctx_hash actions_hash configs_hash s -> item (mode_to_start_state a) m <> None ->
    match_token D U a action sempred ctx_hash actions_hash configs_hash fuel m l0 s = Val (r, l', s') -> cache_fits s' -> ends r l'.
  Proof.
    intros (Len & G) Mo H F. unfold match_token in H. destruct (vget (sm_dfas s) m) as [d|] eqn:Ed.
    2: { exfalso. unfold item in Mo. unfold vget in Ed. destruct (m <? 0); [congruence|]. apply nth_error_None in Ed.
         apply nth_error_Some in Mo. lia. }
    step H rd Er. destruct rd as [[[r1 d1] p1] l1]. step H dfas Ev. inversion H; subst; clear H.
    assert (Ev' : vset (sm_dfas s) m d1 = Some dfas) by (destruct (vset (sm_dfas s) m d1); cbn in Ev; congruence).
    destruct (vset_ok _ _ _ _ Ev') as (_ & _ & Get).
    assert (F1 : fits d1).
    { apply F. cbn [sm_dfas]. specialize (Get m). rewrite Z.eqb_refl in Get. unfold vget in Get. destruct (m <? 0); [discriminate|]. eapply nth_error_In; eauto. }
    destruct (s0 d) as [q|] eqn:E0.
    - destruct (G _ _ Ed) as (A & B & C & E). destruct (E q E0) as (Lq & st & Eq & Co). eapply exec_atn_text; [exact (G _ _ Ed) | exact Lq | exact Eq | exact Co | | exact Er | exact F1]. reflexivity.
    - unfold match_atn in Er. rewrite vget_item in Er. destruct (item (mode_to_start_state a) m) as [ms|] eqn:Em; [|congruence].
      destruct (mode_state a FM _ _ Em) as (st & Est). rewrite (state_of_ok a _ _ Est) in Er. cbn [obindo] in Er.
      step Er cl Ecl. destruct cl as [c0 l2].
      destruct (match_start_total D U a sempred ctx_hash actions_hash configs_hash FM RA NC _ _ _ _ _ _ _ _ (G _ _ Ed) E0 Em Est Ecl) as (d2 & q & st2 & -> & E2 & Sm & G2 & K2 & Lq & Vq & Co).
      rewrite E2 in Er. cbn [obindo] in Er. rewrite Sm in Er. eapply exec_atn_text; [exact G2 | exact Lq | exact Vq | exact Co | | exact Er | exact F1]. reflexivity.
  Qed.
End Text.
