(** Proofs about the tokens of a text (C98). *)
From Coq Require Import ZArith List Bool Lia.
From Coq Require Import ZifyBool ZifyNat.
From Verif Require Import Outcome CharStreamModel CharStreamSpec CharStreamProofs PredContextModel SemContextModel
  ConfigSetModel DfaModel AtnModel AtnSpec Ll1Spec LexerModel LexerSpec LexerProofs LexMatchSpec LexMatchProofs LexCacheProofs
  LexTextProofs LexMatchProps MunchSpec.
From Verif Require FactoryModel ConcModel ConcLexModel ConcLexTokensProofs WholeProofs FactoryProofs.
Import ListNotations.
Local Open Scope Z_scope.
Local Open Scope outcome_scope.

(** ** The tokens of a text are determined *)
Section Unique.
  Variable a : atn.
  Variable picks : Z -> list Z -> nat -> nat -> Prop.
  Hypothesis picks_match : forall mode rest n rule, picks mode rest n rule -> (n <= length rest)%nat /\ rule_matches a mode rule (firstn n rest).
  Hypothesis picks_one : forall mode rest n rule n' rule', picks mode rest n rule -> picks mode rest n' rule' -> n = n' /\ rule = rule'.
  Hypothesis One : one_action_list a.
  Lemma found_unique mode rest n ty xs n' ty' xs' : match_found picks a mode rest n ty xs -> match_found picks a mode rest n' ty' xs' -> n = n' /\ ty = ty' /\ xs = xs'.
  Proof.
    intros (r & A1 & A3 & A4) (r' & B1 & B3 & B4). destruct (picks_one _ _ _ _ _ _ A1 B1) as (<- & <-).
    split; [reflexivity|]. split; [eapply type_unique; eauto|]. eapply One; eauto.
  Qed.
  Lemma found_not_nothing mode rest n ty xs : match_found picks a mode rest n ty xs -> nothing_matches a mode rest -> False.
  Proof. intros (r & P & _) N. destruct (picks_match _ _ _ _ P) as (L & M). exact (N n r L M). Qed.
  Lemma looked_unique mode rest n n' : looked_at a mode rest n -> looked_at a mode rest n' -> n = n'.
  Proof.
    intros (_ & j & A1 & A2 & A3 & ->) (_ & j' & B1 & B2 & B3 & ->). destruct (lt_eq_lt_dec j j') as [[L|L]|L]; [|congruence|]; exfalso.
    - apply A3; [lia|]. apply B2. lia.
    - apply B3; [lia|]. apply A2. lia.
  Qed.
  Variable cs : list Z.
  Lemma skipn_end : skipn (length cs) cs = [].
  Proof. apply skipn_all. Qed.
  Lemma scans_unique from k c m s m' : scans picks a cs from k c m s m' -> forall s' m'', scans picks a cs from k c m s' m'' -> s = s' /\ m' = m''.
  Proof.
    induction 1 as [k c m n ty xs c' m' F O|k c m n ty xs t c' m' F O|k c m n ty xs c' m' F O|k c m n ty xs c' m' s m'' F O S IH|c m N|k c m n L K];
    intros s' m3 S';
    inversion S' as [k0 c0 m0 n0 ty0 xs0 c0' m0' F' O'|k0 c0 m0 n0 ty0 xs0 t0 c0' m0' F' O'|k0 c0 m0 n0 ty0 xs0 c0' m0' F' O'|k0 c0 m0 n0 ty0 xs0 c0' m0' s0 m0'' F' O' S0|c0 m0 N'|k0 c0 m0 n0 L' K']; subst;
    try (destruct (found_unique _ _ _ _ _ _ _ _ F F') as (-> & -> & ->); rewrite O in O'; first [discriminate O' | inversion O'; subst; clear O']; auto; fail);
    try (exfalso; eapply found_not_nothing; [exact F|]; first [exact (proj1 K') | rewrite skipn_end; assumption]);
    try (exfalso; eapply found_not_nothing; [exact F'|]; first [exact (proj1 K) | rewrite skipn_end; assumption]);
    try (exfalso; lia); auto.
    rewrite (looked_unique _ _ _ _ K K'). auto.
  Qed.
  Lemma produces_unique d k m n ss : produces picks a cs d k m n ss -> forall ss', produces picks a cs d k m n ss' -> ss = ss'.
  Proof.
    induction 1 as [d k m|k m n ss P IH|k m ty c from to m' n ss S P IH|k m from to e m' n ss S E P IH]; intros ss' P'; inversion P'; subst; auto.
    - f_equal. auto.
    - match goal with X : scans _ _ _ _ _ _ _ _ _ |- _ => destruct (scans_unique _ _ _ _ _ _ S _ _ X) as (Q & ->); inversion Q; subst end. f_equal. auto.
    - match goal with X : scans _ _ _ _ _ _ _ _ _ |- _ => destruct (scans_unique _ _ _ _ _ _ S _ _ X) as (Q & ->); inversion Q; subst end. intuition discriminate.
    - match goal with X : scans _ _ _ _ _ _ _ _ _ |- _ => destruct (scans_unique _ _ _ _ _ _ S _ _ X) as (Q & ->); inversion Q; subst end. intuition discriminate.
    - match goal with X : scans _ _ _ _ _ _ _ _ _ |- _ => destruct (scans_unique _ _ _ _ _ _ S _ _ X) as (Q & ->); inversion Q; subst end. f_equal. auto.
  Qed.
End Unique.

(** longest match, first rule *)
Lemma munch_matches a mode rest n rule : maximal_munch a mode rest n rule -> (n <= length rest)%nat /\ rule_matches a mode rule (firstn n rest).
Proof. intros ((L & _) & (M & _)). auto. Qed.
Lemma munch_one a mode rest n rule n' rule' : maximal_munch a mode rest n rule -> maximal_munch a mode rest n' rule' -> n = n' /\ rule = rule'.
Proof.
  intros (A1 & A2) (B1 & B2). pose proof (longest_unique _ _ _ _ _ A1 B1). subst n'. split; [reflexivity | exact (first_unique _ _ _ _ _ A2 B2)].
Qed.
Lemma munch_unique a cs d k m n ss ss' : one_action_list a -> produces (maximal_munch a) a cs d k m n ss -> produces (maximal_munch a) a cs d k m n ss' -> ss = ss'.
Proof. intros One P P'. eapply produces_unique; eauto using munch_matches, munch_one. Qed.

(** ** The lexer produces them *)
Section Lexer.
  Variable D : input_data.
  Variable U : Type.
  Variable a : atn.
  Variable action : Z -> Z -> lexer U -> lexer U.
  Variable sempred : Z -> Z -> lexer U -> bool * lexer U.
  Variable before_emit : lexer U -> lexer U.
  Variable ctx_hash : pctx -> Z.
  Variable actions_hash : list lexer_action -> Z.
  Variable configs_hash : list (config hashed) -> Z.
  Notation lexer := (lexer U).
  Variables raw cs : list Z.
  Variable pos : nat -> Z.
  Hypothesis TS : text_source D raw cs pos.
  Hypothesis OC : Forall ordinary_char cs.
  Hypothesis FM : lexer_formed a.
  Hypothesis RA : rules_apart a.
  Hypothesis NC : no_collisions D U a sempred ctx_hash actions_hash configs_hash.
  Hypothesis NE : no_empty_match a.
  Hypothesis One : one_action_list a.
  Hypothesis NCA : no_custom_actions a.
  Hypothesis ME : modes_exist a.
  Hypothesis PT : proper_types a.
  Hypothesis Ka : forall r i l, lx_input U (action r i l) = lx_input U l.
  Hypothesis Be : forall l, before_emit l = l.
  Notation sim_good := (sim_good D U a sempred ctx_hash actions_hash configs_hash).
  Notation at_char := (at_char U raw cs pos).

  (** how matches are picked *)
  Variable picks : Z -> list Z -> nat -> nat -> Prop.
  (** the outcome of a match at character [k] *)
  Definition picked (k : nat) (l : lexer) (mode : Z) (r : match_result) (l' : lexer) : Prop :=
    let rest := skipn k cs in
    (exists n kk xs w ex ln ty, picks mode rest n kk /\ rule_has_type a mode kk ty /\ rule_matches_with a mode kk w xs /\
       map bare (match ex with Some e => ex_actions e | None => [] end) = map bare xs /\ eat D U n l = Val ln /\ r = inl ty /\
       l' = match ex with Some e => execute U action e ln (is_index (lx_input U l)) | None => ln end) \/
    (nothing_matches a mode rest /\ exists j, (j <= length rest)%nat /\ eat D U j l = Val l' /\
       (forall i, (0 < i <= j)%nat -> LexTextProofs.viable a cs k mode i) /\
       ((j < length rest)%nat -> ~ LexTextProofs.viable a cs k mode (S j)) /\
       r = if Nat.eqb (length rest) 0 then inl TOKEN_EOF else inr (LexerNoAltError (is_index (lx_input U l)))).
  Hypothesis picks_match : forall mode rest n rule, picks mode rest n rule -> (n <= length rest)%nat /\ rule_matches a mode rule (firstn n rest).
  Hypothesis match_picks : forall k l mode fuel s r l' s', lx_input U l = IStream raw (pos k) -> (k <= length cs)%nat -> sim_good s ->
    item (mode_to_start_state a) mode <> None ->
    match_token D U a action sempred ctx_hash actions_hash configs_hash fuel mode l s = Val (r, l', s') -> cache_fits s' -> picked k l mode r l'.

  (** while a stretch that began at [from] is scanned *)
  Definition held (from k : nat) (c : Z) (m : modes) (es : list (Z * Z * list Z)) (l : lexer) : Prop :=
    at_char k l /\ (from <= k)%nat /\ lx_start U l = pos from /\ (lx_start_line U l, lx_start_column U l) = place_after (firstn from cs) /\
    lx_channel U l = c /\ lx_mode U l = in_mode m /\ lx_mode_stack U l = rev (saved m) /\ lx_text U l = None /\ lx_token U l = None /\
    lx_errors U l = es /\ (lx_hit_eof U l = true -> k = length cs).
  Definition known (m : modes) : Prop := Forall (fun i => item (mode_to_start_state a) i <> None) (in_mode m :: saved m).
  (** how the lexer writes down a verdict *)
  Definition coded (v : verdict) : Z := match v with AsDeclared => 0 | AsType t => t | ToSkip => -3 | ToContinue => -2 end.

  Lemma obey_held from k s es l x : is_position_dependent x = false ->
    held from k (on_channel s) (to_modes s) es l -> lx_type U l = coded (asked_for s) ->
    held from k (on_channel (obey s x)) (to_modes (obey s x)) es (execute_action U action x l) /\
    lx_type U (execute_action U action x l) = coded (asked_for (obey s x)).
  Proof.
    destruct s as [v c m]. intros Np H T. cbn [on_channel to_modes asked_for] in *.
    destruct H as (H1 & H2 & H3 & H4 & H5 & H6 & H7 & H8 & H9 & H10 & H11). unfold held, LexerProofs.at_char in *.
    destruct x; cbn [is_position_dependent] in Np; try discriminate; cbn [obey execute_action on_channel to_modes asked_for coded];
      try (split; [repeat (split; [assumption|]); assumption | try exact T; reflexivity]).
    - split; [|exact T]. repeat (split; [first [assumption | reflexivity]|]); assumption.
    - split; [|exact T]. repeat (split; [first [assumption | reflexivity]|]); assumption.
    - unfold pop_mode. rewrite H7. destruct (saved m) as [|i is] eqn:Es.
      + cbn [rev vec_pop fst]. split; [|exact T]. rewrite Es. repeat (split; [first [assumption | reflexivity]|]); assumption.
      + cbn [rev]. rewrite vec_pop_app. cbn [fst]. split; [|exact T]. repeat (split; [first [assumption | reflexivity]|]); assumption.
    - split; [|exact T]. unfold push_mode, with_modes. cbn [saved in_mode rev lx_mode_stack]. rewrite H6, H7.
      repeat (split; [first [assumption | reflexivity]|]); assumption.
  Qed.
  Lemma obey_all_held from k es xs : Forall (fun x => is_position_dependent x = false) xs -> forall s l,
    held from k (on_channel s) (to_modes s) es l -> lx_type U l = coded (asked_for s) ->
    let l' := fold_left (fun l x => execute_action U action x l) xs l in
    held from k (on_channel (fold_left obey xs s)) (to_modes (fold_left obey xs s)) es l' /\ lx_type U l' = coded (asked_for (fold_left obey xs s)).
  Proof.
    induction 1 as [|x xs Fx Fxs IH]; intros s l H T; cbn [fold_left]; [auto|]. destruct (obey_held _ _ _ _ _ _ Fx H T) as (H1 & T1). exact (IH _ _ H1 T1).
  Qed.
  Lemma obey_known x s : In x (lexer_actions a) -> known (to_modes s) -> known (to_modes (obey s x)).
  Proof.
    intros I K. destruct s as [v c m]. cbn [to_modes] in K. pose proof (proj2 ME x I) as X. unfold known in *. inversion K as [|? ? K1 K2]; subst.
    destruct x; cbn [obey to_modes]; auto; try (constructor; cbn [in_mode saved]; auto; fail).
    destruct (saved m) eqn:Es; cbn [in_mode saved]; [rewrite Es; constructor; auto | exact K2].
  Qed.
  Lemma obey_all_known xs : (forall x, In x xs -> In x (lexer_actions a)) -> forall s, known (to_modes s) -> known (to_modes (fold_left obey xs s)).
  Proof.
    induction xs as [|x xs IH]; intros I s K; cbn [fold_left]; [exact K|]. apply IH; [intros y Hy; apply I; now right|]. apply obey_known; [apply I; now left | exact K].
  Qed.
  (** the type a rule asks for is proper *)
  Lemma obey_all_proper xs : (forall x, In x xs -> In x (lexer_actions a)) -> forall s,
    match asked_for s with AsType t => ~ In t [0; -2; -3] | _ => True end -> match asked_for (fold_left obey xs s) with AsType t => ~ In t [0; -2; -3] | _ => True end.
  Proof.
    induction xs as [|x xs IH]; intros I s K; cbn [fold_left]; [exact K|]. apply IH; [intros y Hy; apply I; now right|]. destruct s as [v c m]. cbn [asked_for] in K.
    destruct x; cbn [obey asked_for]; auto. apply (proj1 PT). apply I. now left.
  Qed.

  Lemma fold_placed start stop xs : Forall (fun x => is_position_dependent x = false) xs -> forall l : lexer, is_index (lx_input U l) = stop ->
    fold_left (as_placed action start stop) xs l = fold_left (fun l x => execute_action U action x l) xs l.
  Proof.
    induction 1 as [|x xs Fx Fxs IH]; intros l E; cbn [fold_left]; [reflexivity|].
    assert (X : as_placed action start stop l x = execute_action U action x l).
    { unfold as_placed. rewrite action_moved, move_move by exact Fx. rewrite <- E, <- (action_input action Ka x l). apply move_here. }
    rewrite X. apply IH. rewrite action_input by exact Ka. exact E.
  Qed.
  Lemma bare_id x : is_position_dependent x = false -> bare x = x.
  Proof. destruct x; cbn; intros; try discriminate; reflexivity. Qed.

  Lemma eat_char k n : forall l ln, at_char k l -> eat D U n l = Val ln -> at_char (k + n) ln.
  Proof.
    induction n as [|n IH]; intros l ln A E; cbn [eat] in E; [inversion E; subst; now rewrite Nat.add_0_r|]. step E l1 E1.
    replace (k + S n)%nat with (S (k + n)) by lia. eapply (consume_at_char D U raw cs pos TS); [eapply IH; eauto | exact E].
  Qed.
  Lemma eat_held from k c m es l n ln : held from k c m es l -> eat D U n l = Val ln -> (k + n <= length cs)%nat ->
    held from (k + n) c m es ln /\ lx_type U ln = lx_type U l.
  Proof.
    intros H E L. pose proof (proj1 H) as A. pose proof (eat_char _ _ _ _ A E) as A'. destruct A as (_ & Hi & _).
    assert (X := eat_here D U raw cs pos TS k l n ln Hi L E). destruct H as (_ & H2 & H3 & H4 & H5 & H6 & H7 & H8 & H9 & H10 & H11).
    split; [|rewrite X; reflexivity]. split; [exact A'|]. split; [lia|]. rewrite X. cbn. repeat (split; [assumption|]). intros He. specialize (H11 He). lia.
  Qed.

  Lemma under_way_viable k i mode : LexTextProofs.viable a cs k mode i <-> under_way a mode (firstn i (skipn k cs)).
  Proof.
    split.
    - intros (alt & [j st] & kk & q & xs & B & _ & R & s & E & K). exists kk, q, xs, j, st, s. auto.
    - intros (kk & q & xs & j & st & s & B & R & E & K). exists (Z.of_nat kk + 1), (j, st), kk, q, xs. split; [exact B|]. split; [reflexivity|]. split; [exact R|]. exists s. auto.
  Qed.

  (** one match *)
  Lemma match_step from k c m es fuel l s r l1 s1 : held from k c m es l -> known m -> lx_type U l = 0 -> sim_good s -> cache_fits s1 ->
    match_token D U a action sempred ctx_hash actions_hash configs_hash fuel (lx_mode U l) l s = Val (r, l1, s1) ->
    (exists n ty xs, match_found picks a (in_mode m) (skipn k cs) n ty xs /\ (0 < n)%nat /\ (k + n <= length cs)%nat /\ r = inl ty /\ ~ In ty [-2; -3] /\
       let s' := obey_all xs c m in
       held from (k + n) (on_channel s') (to_modes s') es l1 /\ lx_type U l1 = coded (asked_for s') /\ known (to_modes s') /\
       match asked_for s' with AsType t => ~ In t [0; -2; -3] | _ => True end) \/
    (r = inl (-1) /\ k = length cs /\ nothing_matches a (in_mode m) [] /\ held from k c m es l1 /\ lx_type U l1 = 0) \/
    (exists e j, r = inr e /\ (k < length cs)%nat /\ (k + j <= length cs)%nat /\ looked_at a (in_mode m) (skipn k cs) (Nat.min (S (k + j)) (length cs) - k) /\
       held from (k + j) c m es l1 /\ lx_type U l1 = 0).
  Proof.
    intros H K T G F E. assert (H' := H). destruct H' as ((A1 & A2 & A3) & _ & _ & _ & _ & Hm & _). rewrite Hm in E.
    assert (Mo : item (mode_to_start_state a) (in_mode m) <> None) by (inversion K; auto).
    assert (En := match_picks k l (in_mode m) fuel s r l1 s1 A2 A1 G Mo E F).
    assert (Lr : length (skipn k cs) = (length cs - k)%nat) by apply skipn_length.
    destruct En as [(n & kk & xs & w & ex & ln & ty & B1 & B3 & B4 & B5 & B6 & -> & ->)|(N & j & B1 & B2 & B3 & B4 & ->)].
    - left. exists n, ty, xs. assert (Ln : (n <= length cs - k)%nat) by (rewrite <- Lr; exact (proj1 (picks_match _ _ _ _ B1))).
      assert (M : rule_matches_with a (in_mode m) kk (firstn n (skipn k cs)) xs).
      { destruct (proj2 (picks_match _ _ _ _ B1)) as (ys & M). rewrite (One _ _ _ _ _ _ B4 M). exact M. }
      split; [exists kk; auto|]. split. { destruct n; [|lia]. exfalso. apply (NE (in_mode m) kk). exists xs. exact M. }
      split; [lia|]. split; [reflexivity|]. split. { destruct B3 as (q & _ & B3). apply (proj2 PT). unfold item in B3. destruct (_ <? 0); [discriminate|]. eapply nth_error_In; eauto. }
      assert (Ix : forall x, In x xs -> In x (lexer_actions a)). { destruct M as (q & i & st & _ & R & _). eapply run_actions; eauto. }
      assert (Fx : Forall (fun x => is_position_dependent x = false) xs) by (apply Forall_forall; intros x Hx; apply NCA; auto).
      assert (Ex : match ex with Some e => execute U action e ln (is_index (lx_input U l)) | None => ln end = fold_left (fun l x => execute_action U action x l) xs ln).
      { assert (Mb : map bare xs = xs). { clear - Fx. induction Fx as [|x xs Fx _ IH]; cbn; [reflexivity|]. rewrite IH, bare_id; auto. }
        destruct ex as [e|].
        - rewrite execute_ok by exact Ka. rewrite <- (fold_placed (is_index (lx_input U l)) (is_index (lx_input U ln)) xs Fx ln eq_refl).
          symmetry. apply execute_same; auto. apply Forall_impl with (2 := Fx). intros x Hx. rewrite bare_id; auto.
        - destruct xs; [reflexivity | discriminate]. }
      rewrite Ex. destruct (eat_held _ _ _ _ _ _ _ _ H B6 ltac:(lia)) as (H1 & T1). cbv zeta. unfold obey_all.
      destruct (obey_all_held from (k + n)%nat es xs Fx (Asked AsDeclared c m) ln H1 ltac:(cbn; congruence)) as (H2 & T2).
      split; [exact H2|]. split; [exact T2|]. split; [apply obey_all_known; auto | apply obey_all_proper; cbn; auto].
    - right. rewrite Lr. destruct (Nat.eqb_spec (length cs - k) 0) as [L0|L0].
      + left. assert (j = 0%nat) by lia. subst j. cbn [eat] in B2. inversion B2; subst l1. assert (k = length cs) by lia.
        split; [reflexivity|]. split; [assumption|]. split; [|auto]. subst k. rewrite skipn_end in N. exact N.
      + right. exists (LexerNoAltError (is_index (lx_input U l))), j. split; [reflexivity|]. split; [lia|]. split; [lia|].
        split. { split; [exact N|]. exists j. split; [exact B1|]. split; [intros i Hi; apply under_way_viable, B3; lia|]. split; [intros Lj X; apply (B4 Lj), under_way_viable, X|]. rewrite Lr. lia. }
        destruct (eat_held _ _ _ _ _ _ _ _ H B2 ltac:(lia)) as (H1 & T1). split; [exact H1 | congruence].
  Qed.

  Lemma wrong_reports from k l txt : at_char k l -> (from <= k)%nat -> lx_start U l = pos from ->
    (lx_start_line U l, lx_start_column U l) = place_after (firstn from cs) ->
    get_text D (lx_input U l) (lx_start U l) (get_char_index U l) = Ok txt ->
    reports raw cs pos (lx_start_line U l, lx_start_column U l, txt) (Stretch from (Nat.min (S k) (length cs)) Reported).
  Proof.
    intros (A1 & A2 & A3) L E P X. unfold get_char_index in X. rewrite A2 in X. cbn [is_index] in X. apply (text_through D raw cs pos TS) in X; [|exact A1].
    unfold reports. cbn [s_from s_to]. rewrite <- place_line, <- P. split; [reflexivity|]. split; [|rewrite X, E; reflexivity].
    change (lx_start_column U l) with (snd (lx_start_line U l, lx_start_column U l)). rewrite P. apply place_column.
  Qed.
  Lemma recover_eat k l l' : at_char k l -> recover D U l = Val l' -> eat D U (Nat.min (S k) (length cs) - k) l = Val l'.
  Proof.
    intros (A1 & A2 & A3) H. unfold recover in H. rewrite A2, (la_here D raw cs pos TS k A1) in H. cbn [lift obindo] in H. destruct (nth_error cs k) as [ch|] eqn:Ec.
    - destruct (Z.eqb_spec ch EOF) as [->|_]; [exfalso; eapply (char_not_eof D raw cs pos TS); eauto|]. assert (k < length cs)%nat by (apply nth_error_Some; congruence).
      replace (Nat.min (S k) (length cs) - k)%nat with 1%nat by lia. cbn [eat]. exact H.
    - apply nth_error_None in Ec. replace (Nat.min (S k) (length cs) - k)%nat with 0%nat by lia. exact H.
  Qed.
  Lemma at_end_eof k l : at_char k l -> lift (la D (lx_input U l) 1) = Val (match nth_error cs k with Some ch => ch | None => EOF end).
  Proof. intros (A1 & A2 & _). rewrite A2, (la_here D raw cs pos TS k A1). reflexivity. Qed.
  Lemma eof_iff k : (k <= length cs)%nat -> ((match nth_error cs k with Some ch => ch | None => EOF end) =? EOF) = Nat.eqb k (length cs).
  Proof.
    intros L. destruct (nth_error cs k) as [ch|] eqn:Ec.
    - assert (k < length cs)%nat by (apply nth_error_Some; congruence). pose proof (char_not_eof D raw cs pos TS _ _ Ec). lia.
    - apply nth_error_None in Ec. cbn. lia.
  Qed.

  Definition no_code (e : executor) (i : Z) (l : lexer) : ConcLexModel.lthread U := ConcModel.Stop Panics.

  (** what the inner loop leaves *)
  Definition scanned (es : list (Z * Z * list Z)) (st : stretch) (m' : modes) (b : bool) (l' : lexer) : Prop :=
    known m' /\ lx_hit_eof U l' = Nat.eqb (s_to st) (length cs) /\ exists c' es', held (s_from st) (s_to st) c' m' es' l' /\
    match s_ending st with
    | Made ty ch => b = true /\ lx_type U l' = ty /\ ch = c' /\ es' = es /\ ((s_from st < s_to st)%nat \/ (s_to st = length cs /\ ty = -1))
    | Skipped => b = false /\ es' = es
    | Reported => b = false /\ exists r, es' = es ++ [r] /\ reports raw cs pos r st
    end.

  Lemma inner_scan fuel n : forall from k c m es l s b l' s', held from k c m es l -> known m -> sim_good s -> cache_fits s' ->
    inner_loop D U a action sempred ctx_hash actions_hash configs_hash fuel n l s = Val (b, l', s') ->
    exists st m', scans picks a cs from k c m st m' /\ s_from st = from /\ scanned es st m' b l'.
  Proof.
    induction n as [|n IH]; intros from k c m es l s b l' s' H K G F E; [discriminate|]. cbn [inner_loop] in E. step E ml Em. destruct ml as [[r l1] s1].
    step E tyl Et. destruct tyl as [ttype l2]. step E ch Ec.
    assert (H0 : held from k c m es (with_type U l TOKEN_INVALID_TYPE)) by exact H.
    assert (G1 := match_good D U a sempred ctx_hash actions_hash configs_hash FM RA NC action _ _ _ _ _ _ _ G Em).
    set (l3 := if ch =? EOF then with_hit_eof U l2 else l2) in *. cbv zeta in E.
    set (l4 := if lx_type U l3 =? TOKEN_INVALID_TYPE then with_type U l3 ttype else l3) in *. set (l5 := with_log U l4 _) in *.
    assert (F1 : cache_fits s1).
    { destruct (lx_type U l5 =? LEXER_SKIP); [inversion E; subst; exact F|]. destruct (lx_type U l5 =? LEXER_MORE); [|inversion E; subst; exact F].
      exact (proj2 (ConcLexTokensProofs.inner_good D U a action sempred ctx_hash actions_hash configs_hash no_code FM RA NC _ _ _ _ _ _ _ G1 E) F). }
    (* the lexer after the bookkeeping *)
    assert (B : forall k2 c2 m2 es2, held from k2 c2 m2 es2 l2 -> (k <= k2)%nat -> held from k2 c2 m2 es2 l5 /\ lx_hit_eof U l5 = Nat.eqb k2 (length cs)).
    { intros k2 c2 m2 es2 H2 Lk. pose proof (proj1 H2) as A2. rewrite (at_end_eof _ _ A2) in Ec. injection Ec as Ec. pose proof (eof_iff k2 (proj1 A2)) as X. rewrite Ec in X.
      destruct H2 as (_ & H2 & H3 & H4 & H5 & H6 & H7 & H8 & H9 & H10 & H11).
      assert (X3 : held from k2 c2 m2 es2 l3 /\ lx_hit_eof U l3 = Nat.eqb k2 (length cs)).
      { unfold l3. rewrite X. destruct (Nat.eqb_spec k2 (length cs)) as [Y|Y].
        - split; [|reflexivity]. split; [exact A2|]. repeat (split; [assumption|]). intros _. exact Y.
        - split; [split; [exact A2|]; repeat (split; [assumption|]); exact H11|]. destruct (lx_hit_eof U l2); [exfalso; auto | reflexivity]. }
      unfold l5, l4. destruct (lx_type U l3 =? TOKEN_INVALID_TYPE); exact X3. }
    assert (T5 : lx_type U l5 = if lx_type U l2 =? 0 then ttype else lx_type U l2).
    { unfold l5, l4, TOKEN_INVALID_TYPE. assert (X : lx_type U l3 = lx_type U l2) by (unfold l3; destruct (ch =? EOF); reflexivity). rewrite X. cbn [with_log lx_type].
      destruct (lx_type U l2 =? 0); [reflexivity | exact X]. }
    destruct (match_step from k c m es fuel _ s r l1 s1 H0 K eq_refl G F1 Em) as
      [(n1 & ty & xs & M & N1 & L1 & -> & Pt & H1 & T1 & K1 & P1)|[(-> & Hk & N & H1 & T1)|(e & j & -> & L0 & L1 & Lo & H1 & T1)]].
    - injection Et as <- <-. destruct (obey_all xs c m) as [v c' m'] eqn:Eo. cbn [on_channel to_modes asked_for] in *. destruct (B _ _ _ _ H1 ltac:(lia)) as (H5 & Y5).
      pose proof (proj1 (proj2 H)) as Lf.
      destruct v as [|t| |]; cbn [coded] in T1; rewrite T1 in T5; cbn [Z.eqb] in T5.
      + cbn in Pt. assert (X1 : lx_type U l5 =? LEXER_SKIP = false) by (unfold LEXER_SKIP; lia). assert (X2 : lx_type U l5 =? LEXER_MORE = false) by (unfold LEXER_MORE; lia).
        rewrite X1, X2 in E. injection E as <- <- <-. exists (Stretch from (k + n1) (Made ty c')), m'. split; [econstructor; eauto|]. split; [reflexivity|].
        split; [exact K1|]. split; [exact Y5|]. exists c', es. cbn. split; [exact H5|]. split; [reflexivity|]. split; [exact T5|]. split; [reflexivity|]. split; [reflexivity|]. left. lia.
      + cbn in P1. assert (X0 : t =? 0 = false) by lia. rewrite X0 in T5.
        assert (X1 : lx_type U l5 =? LEXER_SKIP = false) by (unfold LEXER_SKIP; lia). assert (X2 : lx_type U l5 =? LEXER_MORE = false) by (unfold LEXER_MORE; lia).
        rewrite X1, X2 in E. injection E as <- <- <-. exists (Stretch from (k + n1) (Made t c')), m'. split; [eapply scan_type; eauto|]. split; [reflexivity|].
        split; [exact K1|]. split; [exact Y5|]. exists c', es. cbn. split; [exact H5|]. split; [reflexivity|]. split; [exact T5|]. split; [reflexivity|]. split; [reflexivity|]. left. lia.
      + rewrite T5 in E. cbn in E. injection E as <- <- <-. exists (Stretch from (k + n1) Skipped), m'. split; [eapply scan_skip; eauto|]. split; [reflexivity|].
        split; [exact K1|]. split; [exact Y5|]. exists c', es. cbn. auto.
      + rewrite T5 in E. cbn in E. destruct (IH _ _ _ _ _ _ _ _ _ _ H5 K1 G1 F E) as (st & m'' & S & Fs & R). exists st, m''. split; [|auto]. eapply scan_more; eauto.
    - injection Et as <- <-. destruct (B _ _ _ _ H1 ltac:(lia)) as (H5 & Y5). rewrite T1 in T5. cbn [Z.eqb] in T5. rewrite T5 in E. cbn in E. injection E as <- <- <-.
      subst k. exists (Stretch from (length cs) (Made (-1) c)), m. split; [constructor; exact N|]. split; [reflexivity|]. split; [exact K|]. split; [exact Y5|].
      exists c, es. cbn. split; [exact H5|]. split; [reflexivity|]. split; [exact T5|]. auto.
    - step Et l6 En. step Et l7 Er. injection Et as <- <-. unfold notify_listeners in En. step En txt Ex. injection En as <-. apply lift_val in Ex.
      pose proof H1 as (A1 & Lf & S1 & S2 & _). pose proof (wrong_reports from _ _ _ A1 ltac:(lia) S1 S2 Ex) as Rp.
      set (rep := (lx_start_line U l1, lx_start_column U l1, txt)) in *.
      assert (H6 : held from (k + j) c m (es ++ [rep]) (with_errors U l1 (lx_errors U l1 ++ [rep]))).
      { destruct H1 as (Q1 & Q2 & Q3 & Q4 & Q5 & Q6 & Q7 & Q8 & Q9 & Q10 & Q11). split; [exact Q1|]. rewrite Q10. repeat (split; [first [assumption | reflexivity]|]); assumption. }
      pose proof (recover_eat _ _ _ (proj1 H6) Er) as Ee. destruct (eat_held _ _ _ _ _ _ _ _ H6 Ee ltac:(lia)) as (H7 & T7).
      replace (k + j + (Nat.min (S (k + j)) (length cs) - (k + j)))%nat with (Nat.min (S (k + j)) (length cs)) in H7 by lia.
      destruct (B _ _ _ _ H7 ltac:(lia)) as (H5 & Y5). cbn [with_errors lx_type] in T7. rewrite T7, T1 in T5. cbn [Z.eqb] in T5. rewrite T5 in E. cbn in E. injection E as <- <- <-.
      exists (Stretch from (k + (Nat.min (S (k + j)) (length cs) - k)) Reported), m.
      split; [apply scan_error; [exact L0 | exact Lo]|]. split; [reflexivity|].
      replace (k + (Nat.min (S (k + j)) (length cs) - k))%nat with (Nat.min (S (k + j)) (length cs)) by lia.
      split; [exact K|]. split; [exact Y5|]. exists c, (es ++ [rep]). cbn [s_from s_to s_ending]. split; [exact H5|]. split; [reflexivity|]. exists rep. auto.
  Qed.

  (** between tokens *)
  Definition resting (k : nat) (m : modes) (es : list (Z * Z * list Z)) (d : bool) (l : lexer) : Prop :=
    at_char k l /\ lx_mode U l = in_mode m /\ lx_mode_stack U l = rev (saved m) /\ lx_errors U l = es /\ lx_hit_eof U l = d /\
    (d = true -> k = length cs) /\ known m.
  Lemma scanned_resting es st m' b l' : scanned es st m' b l' -> exists es', resting (s_to st) m' es' (Nat.eqb (s_to st) (length cs)) l' /\
    (made st = true -> es' = es) /\ (s_ending st = Skipped -> es' = es) /\ (reported st = true -> exists r, es' = es ++ [r] /\ reports raw cs pos r st).
  Proof.
    intros (K & Y & c' & es' & H & R). exists es'. destruct H as (H1 & H2 & H3 & H4 & H5 & H6 & H7 & H8 & H9 & H10 & H11).
    split; [repeat (split; [assumption|]); split; [intros X; now apply Nat.eqb_eq in X | exact K]|].
    unfold made, reported. destruct (s_ending st); split; try discriminate; try (split; try discriminate); intuition.
  Qed.

  Lemma slice_between i j q t : (i < j <= length cs)%nat -> get_text D (IStream raw q) (pos i) (pos j - 1) = Ok t -> t = sub_list raw (pos i) (pos j).
  Proof.
    intros L E. destruct TS as [cs0 V|cs0 V].
    - replace (Z.of_nat j - 1) with (Z.of_nat (j - 1)) in E by lia. rewrite slice_get_text in E by lia. injection E as <-. unfold sub_list. rewrite Nat2Z.id. replace (Z.to_nat (Z.of_nat j - Z.of_nat i)) with (S (j - 1) - i)%nat by lia. reflexivity.
    - destruct j as [|j]; [lia|]. rewrite (FactoryProofs.str_text_bytes cs0 q i j) in E; [|exact V|lia|lia|].
      + injection E as <-. apply WholeProofs.encoded_slice. lia.
      + pose proof (pr_mono _ _ _ _ (source_presents _ _ _ _ (utf8_string cs0 V)) j (S j) ltac:(lia)). lia.
  Qed.
  Lemma place_shown from line column : (line, column) = place_after (firstn from cs) -> line = line_after (firstn from cs) /\ column_after (firstn from cs) column.
  Proof.
    intros P. rewrite <- place_line. pose proof (place_column (firstn from cs)) as X. rewrite <- P in *. auto.
  Qed.
  Lemma emit_shows st m' es l l' : scanned es st m' true l -> emit D U before_emit l = Val l' ->
    exists t, lx_token U l' = Some t /\ shows raw cs pos t st /\ resting (s_to st) m' es (Nat.eqb (s_to st) (length cs)) l'.
  Proof.
    intros S E. destruct (scanned_resting _ _ _ _ _ S) as (es' & Re & Rm & _). destruct S as (K & Y & c' & es2 & H & R).
    unfold emit in E. rewrite Be in E. step E t Et. injection E as <-. cbn [with_token with_text lx_token]. exists t. split; [reflexivity|]. apply lift_val in Et.
    destruct (s_ending st) as [ty ch| |] eqn:Es; try (destruct R as (X & _); discriminate X). destruct R as (_ & T & -> & -> & Lt).
    assert (es' = es) by (apply Rm; unfold made; rewrite Es; reflexivity). subst es'. split; [|exact Re].
    destruct H as ((A1 & A2 & A3) & H2 & H3 & H4 & H5 & H6 & H7 & H8 & H9 & H10 & H11).
    unfold FactoryModel.create, get_char_index in Et. rewrite A2, H3, H5, H8, T in Et. cbn [is_index] in Et.
    destruct (place_shown _ _ _ H4) as (P1 & P2).
    assert (X : forall txt, Ok (FactoryModel.Token ty c' (pos (s_from st)) (pos (s_to st) - 1) (-1) (lx_start_line U l) (lx_start_column U l) txt false) = Ok t ->
      (ty =? -1 = false -> txt = sub_list raw (pos (s_from st)) (pos (s_to st))) -> shows raw cs pos t st).
    { intros txt Q Tx. injection Q as <-. exists ty, c'. split; [exact Es|]. cbn [FactoryModel.token_type FactoryModel.channel FactoryModel.start FactoryModel.stop FactoryModel.token_index FactoryModel.line FactoryModel.column].
      do 5 (split; [reflexivity|]). split; [reflexivity || exact P1|]. split; [exact P2|]. unfold FactoryModel.token_get_text. cbn [FactoryModel.token_type FactoryModel.tk_text]. change EOF with (-1).
      destruct (ty =? -1); auto. }
    unfold bind in Et. destruct ((pos (s_to st) - 1 >=? size {| data_raw := raw; is_index := pos (s_to st) |}) || (pos (s_from st) >=? size {| data_raw := raw; is_index := pos (s_to st) |})) eqn:Eb.
    - apply (X _ Et). intros Nt. exfalso. destruct Lt as [Lt|(_ & ->)]; [|discriminate]. unfold size in Eb. cbn [data_raw] in Eb.
      rewrite <- (pos_len D raw cs pos TS) in Eb. pose proof (pos_le D raw cs pos TS (s_to st) (length cs) ltac:(lia)).
      pose proof (pr_mono _ _ _ _ (source_presents _ _ _ _ TS) (s_from st) (s_to st) ltac:(lia)). lia.
    - destruct (get_text D {| data_raw := raw; is_index := pos (s_to st) |} (pos (s_from st)) (pos (s_to st) - 1)) as [txt|] eqn:Eg; [|discriminate].
      apply (X _ Et). intros Nt. destruct Lt as [Lt|(_ & ->)]; [|discriminate]. eapply slice_between; eauto.
  Qed.

  Lemma outer_scan fuel n : forall k m es d l s l' s', resting k m es d l -> sim_good s -> cache_fits s' ->
    outer_loop D U a action sempred before_emit ctx_hash actions_hash configs_hash fuel n l s = Val (l', s') ->
    exists ss st t k' m' d' new, (forall n0 ss', produces picks a cs d' k' m' n0 ss' -> produces picks a cs d k m (S n0) (ss ++ ss')) /\
      lx_token U l' = Some t /\ filter made ss = [st] /\ shows raw cs pos t st /\ resting k' m' (es ++ new) d' l' /\
      Forall2 (reports raw cs pos) new (filter reported ss).
  Proof.
    induction n as [|n IH]; intros k m es d l s l' s' R G F E; [discriminate|]. cbn [outer_loop] in E. destruct (lx_hit_eof U l) eqn:He.
    - step E l1 El. injection E as <- <-. destruct R as (A & R1 & R2 & R3 & R4 & R5 & R6). rewrite He in R4. subst d. specialize (R5 eq_refl). subst k.
      unfold emit_eof in El. step El t Et. injection El as <-. cbn [FactoryModel.create bind lift] in Et. injection Et as <-.
      exists [Stretch (length cs) (length cs) (Made (-1) 0)], (Stretch (length cs) (length cs) (Made (-1) 0)). eexists. exists (length cs), m, true, [].
      split; [intros n0 ss' P; apply produces_eof, P|]. split; [reflexivity|]. split; [reflexivity|]. split.
      + exists (-1), 0. cbn. unfold get_char_index. destruct A as (A1 & A2 & A3). rewrite A2. cbn [is_index]. destruct (place_shown _ _ _ A3) as (P1 & P2).
        do 5 (split; [reflexivity|]). split; [reflexivity|]. split; [exact P1|]. split; [exact P2|]. reflexivity.
      + rewrite app_nil_r. split; [|constructor]. split; [exact A|]. repeat (split; [first [assumption | reflexivity]|]). exact R6.
    - step E bl Eb. destruct bl as [[b l1] s1]. destruct R as (A & R1 & R2 & R3 & R4 & R5 & R6). rewrite He in R4. subst d. clear R5.
      assert (H0 : held k k 0 m es (start_token U l)).
      { pose proof A as (A1 & A2 & A3). split; [exact A|]. split; [lia|]. unfold start_token. cbn. rewrite A2. cbn [is_index]. repeat (split; [first [assumption | reflexivity]|]). intros X. congruence. }
      destruct (ConcLexTokensProofs.inner_good D U a action sempred ctx_hash actions_hash configs_hash no_code FM RA NC _ _ _ _ _ _ _ G Eb) as (G1 & _).
      assert (Go := ConcLexTokensProofs.outer_good D U a action sempred before_emit ctx_hash actions_hash configs_hash no_code FM RA NC).
      assert (F1 : cache_fits s1).
      { destruct b; cbn [negb] in E; [|exact (proj2 (Go _ _ _ _ _ _ G1 E) F)]. destruct (lx_token U l1); [exact (proj2 (Go _ _ _ _ _ _ G1 E) F)|]. step E l2 X. injection E as <- <-. exact F. }
      destruct (inner_scan _ _ _ _ _ _ _ _ _ _ _ _ H0 R6 G F1 Eb) as ([from to e] & m' & S & Fs & Sc). cbn [s_from] in Fs. subst from.
      destruct (scanned_resting _ _ _ _ _ Sc) as (es' & Re & Rm & Rs & Rr). cbn [s_to s_ending] in *. unfold made, reported in Rm, Rr. cbn [s_ending] in Rm, Rr.
      pose proof Sc as (_ & _ & c' & es2 & H1 & Me). cbn [s_from s_to s_ending] in H1, Me.
      destruct e as [ty ch| |].
      + destruct Me as (-> & _). cbn [negb] in E. assert (Tk : lx_token U l1 = None) by (apply H1). rewrite Tk in E. step E l2 El. injection E as <- <-.
        destruct (emit_shows _ _ _ _ _ Sc El) as (t & Et & Sh & Re'). cbn [s_to] in Re'. exists [Stretch k to (Made ty ch)], (Stretch k to (Made ty ch)), t, to, m', (Nat.eqb to (length cs)), [].
        split; [intros n0 ss' P; eapply produces_token; eauto|]. split; [exact Et|]. split; [reflexivity|]. split; [exact Sh|]. rewrite app_nil_r. split; [exact Re' | constructor].
      + destruct Me as (-> & _). cbn [negb] in E. rewrite (Rs eq_refl) in Re. destruct (IH _ _ _ _ _ _ _ _ Re G1 F E) as (ss & st & t & k' & m2 & d' & new & I1 & I2 & I3 & I4 & I5 & I6).
        exists (Stretch k to Skipped :: ss), st, t, k', m2, d', new. split; [intros n0 ss' P; cbn [app]; eapply produces_other; [exact S | auto | apply I1, P]|]. auto.
      + destruct Me as (-> & _). cbn [negb] in E. destruct (Rr eq_refl) as (r & -> & Rp). destruct (IH _ _ _ _ _ _ _ _ Re G1 F E) as (ss & st & t & k' & m2 & d' & new & I1 & I2 & I3 & I4 & I5 & I6).
        exists (Stretch k to Reported :: ss), st, t, k', m2, d', (r :: new). split; [intros n0 ss' P; cbn [app]; eapply produces_other; [exact S | auto | apply I1, P]|].
        split; [exact I2|]. split; [exact I3|]. split; [exact I4|]. rewrite <- app_assoc in I5. split; [exact I5|]. cbn [filter reported s_ending]. constructor; auto.
  Qed.

  Lemma tokens_scan fuel n : forall k m es d l s ts l' s', resting k m es d l -> sim_good s -> cache_fits s' ->
    LexerModel.next_tokens D U a action sempred before_emit ctx_hash actions_hash configs_hash fuel n l s = Val (ts, l', s') ->
    exists ss new, produces picks a cs d k m n ss /\ Forall2 (shows raw cs pos) ts (filter made ss) /\ lx_errors U l' = es ++ new /\ Forall2 (reports raw cs pos) new (filter reported ss).
  Proof.
    induction n as [|n IH]; intros k m es d l s ts l' s' R G F E; cbn [LexerModel.next_tokens] in E.
    - injection E as <- <- <-. exists [], []. rewrite app_nil_r. split; [constructor|]. split; [constructor|]. split; [apply R | constructor].
    - step E tls E1. destruct tls as [[t l1] s1]. unfold next_token in E1. step E1 ls Eo. destruct ls as [l2 s2]. step E1 t' Et. injection E1 as <- <- <-.
      step E tls E2. destruct tls as [[ts1 l3] s3]. injection E as <- <- <-.
      destruct (ConcLexTokensProofs.outer_good D U a action sempred before_emit ctx_hash actions_hash configs_hash no_code FM RA NC _ _ _ _ _ _ G Eo) as (G1 & _).
      assert (F1 := proj2 (ConcLexTokensProofs.tokens_good D U a action sempred before_emit ctx_hash actions_hash configs_hash no_code FM RA NC _ _ _ _ _ _ _ G1 E2) F).
      destruct (outer_scan _ _ _ _ _ _ _ _ _ _ R G F1 Eo) as (ss & st & t & k' & m' & d' & new & I1 & I2 & I3 & I4 & I5 & I6).
      rewrite I2 in Et. injection Et as <-. assert (I5' : resting k' m' (es ++ new) d' (with_token U l2 None)) by exact I5.
      destruct (IH _ _ _ _ _ _ _ _ _ I5' G1 F E2) as (ss2 & new2 & J1 & J2 & J3 & J4). exists (ss ++ ss2), (new ++ new2).
      split; [apply I1, J1|]. rewrite !filter_app, I3. split; [constructor; auto|]. split; [rewrite app_assoc; exact J3 | apply Forall2_app; auto].
  Qed.
  Lemma resting_start u : resting 0 (Modes 0 []) [] false (new_base_lexer U (stream_new raw) u).
  Proof.
    split; [apply (between_start D U raw cs pos TS u)|]. do 4 (split; [reflexivity|]). split; [discriminate|]. constructor; [exact (proj1 ME) | constructor].
  Qed.
End Lexer.
