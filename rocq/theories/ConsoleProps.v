(** C107: the console of a lexer says where a text matches nothing, and nothing else. *)
From Coq Require Import ZArith List Bool Lia.
From Coq Require Import ZifyBool ZifyNat.
From Verif Require Import Outcome Text TreeSpec CharStreamModel CharStreamSpec PredContextModel SemContextModel
  ConfigSetModel DfaModel AtnModel AtnSpec Ll1Spec LexerModel LexerSpec LexerProofs LexMatchSpec LexMatchProofs LexCacheProofs LexTextProofs LexMatchProps
  LexTotalProps MunchSpec MunchProofs MunchProps LazySpec LazyProofs LazyProps LazyLexSpec LazyLexProps.
From Verif Require Import ErrorListenerModel ErrorListenerSpec ConsoleSpec.
From Verif Require TreeProofs LexerProps FactoryModel ErrorListenerProps TextProps LexTotalProofs CharStreamProofs WholeProofs TextSpec WholeSpec RecModel RecSpec GenModel ParserModel PredictModel GenSpec RecProps ParserDemo PredictDemo PredictLLDemo GenDemo.
Import ListNotations.
Local Open Scope Z_scope.

(** ** C107 *)
(** For each stretch of the text that matches nothing, in order, each console of the lexer prints once where
    it begins and what it is; the listeners of the user are told the same. *)
Theorem C107_printed : forall D raw cs pos U a action sempred before_emit ctx_hash actions_hash configs_hash s u fuel n ts l' s' display w,
  lazy_reference_class D raw cs pos U a action sempred before_emit ctx_hash actions_hash configs_hash ->
  warmed D U a action sempred ctx_hash actions_hash configs_hash s -> cache_fits s' ->
  LexerModel.next_tokens D U a action sempred before_emit ctx_hash actions_hash configs_hash fuel n (new_base_lexer U (stream_new raw) u) s = Val (ts, l', s') ->
  let w' := told_of_lexer display (lx_errors U l') w in
  exists ss printed, lexes_lazily a cs n ss /\ Forall2 (complains raw cs pos display) (filter reported ss) printed /\
    w_stderr w' = w_stderr w ++ concat (map (times (consoles (w_listeners w))) printed) /\
    exists told, w_heard w' = w_heard w ++ concat (map (fun e => each (own_ids (w_listeners w)) (ToldError e)) told) /\
      Forall2 (fun x e => se_token e = None /\ se_error e = None /\ se_line e = line_after (firstn (s_from x) cs) /\
                 column_after (firstn (s_from x) cs) (se_column e) /\
                 se_message e = lit "token recognition error at: '" ++ display (sub_list raw (pos (s_from x)) (pos (s_to x))) ++ lit "'") (filter reported ss) told.
Proof.
  intros D raw cs pos U a action sempred be ch ah sh s u fuel n ts l' s' display w RC W F E w'.
  destruct (C106_tokens _ _ _ _ _ _ _ _ _ _ _ _ _ _ _ _ _ _ _ RC W F E) as (ss & L & _ & R).
  destruct (ErrorListenerProps.C83_lexer_told display (lx_errors U l') w) as (printed & P & P1 & P2).
  exists ss, printed. split; [exact L|]. split.
  { clear - R P. revert printed P. induction R as [|[[line column] text] x es xs (-> & C & ->) R IH]; intros printed P; inversion P; subst; constructor; auto.
    exists column. split; assumption. }
  split; [exact P1|].
  exists (map (fun e => let '(line, column, raw) := e in SyntaxError None line column (lit "token recognition error at: '" ++ display raw ++ lit "'") None) (lx_errors U l')).
  split. { unfold w'. rewrite P2. do 2 f_equal. rewrite map_map. apply map_ext. intros [[line column] text]. reflexivity. }
  clear - R. induction R as [|[[line column] text] x es xs (-> & C & ->) R IH]; constructor; auto.
Qed.
Print Assumptions C107_printed.

Lemma complains_one raw cs pos display s p p' : complains raw cs pos display s p -> complains raw cs pos display s p' -> p = p'.
Proof.
  intros (c & C & l & d & A & B & ->) (c' & C' & l' & d' & A' & B' & ->). assert (c' = c) by (eapply column_unique; eauto). subst c'.
  rewrite (TreeProofs.decimal_of_fun _ _ _ A A'), (TreeProofs.decimal_of_fun _ _ _ B B'). reflexivity.
Qed.
Lemma complain_same raw cs pos display ss : forall p p', Forall2 (complains raw cs pos display) ss p -> Forall2 (complains raw cs pos display) ss p' -> p = p'.
Proof.
  induction ss as [|x ss IH]; intros p p' H H'; inversion H; inversion H'; subst; [reflexivity|]. f_equal; [eapply complains_one; eauto | eauto].
Qed.
(** So what is printed depends on the text, the grammar and the listeners only, not on what was lexed before. *)
Theorem C107_same : forall D raw cs pos U a action sempred before_emit ctx_hash actions_hash configs_hash u n display w
    s1 fuel1 ts1 l1 s1' s2 fuel2 ts2 l2 s2',
  lazy_reference_class D raw cs pos U a action sempred before_emit ctx_hash actions_hash configs_hash -> greedy_or_delimited a ->
  warmed D U a action sempred ctx_hash actions_hash configs_hash s1 -> cache_fits s1' ->
  LexerModel.next_tokens D U a action sempred before_emit ctx_hash actions_hash configs_hash fuel1 n (new_base_lexer U (stream_new raw) u) s1 = Val (ts1, l1, s1') ->
  warmed D U a action sempred ctx_hash actions_hash configs_hash s2 -> cache_fits s2' ->
  LexerModel.next_tokens D U a action sempred before_emit ctx_hash actions_hash configs_hash fuel2 n (new_base_lexer U (stream_new raw) u) s2 = Val (ts2, l2, s2') ->
  w_stderr (told_of_lexer display (lx_errors U l1) w) = w_stderr (told_of_lexer display (lx_errors U l2) w).
Proof.
  intros D raw cs pos U a action sempred be ch ah sh u n display w s1 f1 ts1 l1 s1' s2 f2 ts2 l2 s2' RC GD W1 F1 E1 W2 F2 E2.
  destruct (C107_printed _ _ _ _ _ _ _ _ _ _ _ _ _ _ _ _ _ _ _ display w RC W1 F1 E1) as (ss & p & L & P & -> & _).
  destruct (C107_printed _ _ _ _ _ _ _ _ _ _ _ _ _ _ _ _ _ _ _ display w RC W2 F2 E2) as (ss' & p' & L' & P' & -> & _).
  rewrite (C106_unique _ _ _ _ _ GD (proj1 (proj2 (proj2 RC))) L' L) in P'. rewrite (complain_same _ _ _ _ _ _ _ P P'). reflexivity.
Qed.
Print Assumptions C107_same.

Lemma complains_something raw cs pos display s p : complains raw cs pos display s p -> p <> [].
Proof. intros (c & _ & l & d & _ & _ & ->). discriminate. Qed.
Lemma one_console ls : In ConsoleErrorListener ls -> exists k, consoles ls = Datatypes.S k.
Proof.
  intros C. unfold consoles. destruct (filter (fun l => match l with ConsoleErrorListener => true | _ => false end) ls) as [|x xs] eqn:Ef; [|cbn; eauto].
  exfalso. assert (I : In ConsoleErrorListener (filter (fun l => match l with ConsoleErrorListener => true | _ => false end) ls)) by (apply filter_In; auto).
  rewrite Ef in I. exact I.
Qed.
(** A console stays silent exactly if everything in the text matches. *)
Theorem C107_silent : forall D raw cs pos U a action sempred before_emit ctx_hash actions_hash configs_hash s u fuel n ts l' s' display w ss,
  lazy_reference_class D raw cs pos U a action sempred before_emit ctx_hash actions_hash configs_hash -> greedy_or_delimited a ->
  warmed D U a action sempred ctx_hash actions_hash configs_hash s -> cache_fits s' ->
  LexerModel.next_tokens D U a action sempred before_emit ctx_hash actions_hash configs_hash fuel n (new_base_lexer U (stream_new raw) u) s = Val (ts, l', s') ->
  In ConsoleErrorListener (w_listeners w) -> lexes_lazily a cs n ss ->
  (w_stderr (told_of_lexer display (lx_errors U l') w) = w_stderr w <-> Forall (fun x => reported x = false) ss).
Proof.
  intros D raw cs pos U a action sempred be ch ah sh s u fuel n ts l' s' display w ss RC GD W F E C L.
  destruct (C107_printed _ _ _ _ _ _ _ _ _ _ _ _ _ _ _ _ _ _ _ display w RC W F E) as (ss' & p & L' & P & -> & _).
  rewrite (C106_unique _ _ _ _ _ GD (proj1 (proj2 (proj2 RC))) L' L) in P. clear L L' E ss'.
  destruct (one_console _ C) as (k & ->). split.
  - intros H. rewrite <- (app_nil_r (w_stderr w)) in H at 2. apply app_inv_head in H.
    destruct p as [|x p].
    + inversion P as [Ef|]. symmetry in Ef. apply Forall_forall. intros y I. destruct (reported y) eqn:Ey; [|reflexivity].
      exfalso. assert (I' : In y (filter reported ss)) by (apply filter_In; auto). rewrite Ef in I'. exact I'.
    + exfalso. inversion P as [|y ys ? ? Hy _]; subst. apply complains_something in Hy. cbn in H. destruct x; [congruence | discriminate].
  - intros H. assert (Ef : filter reported ss = []).
    { clear - H. induction H as [|x ss Hx _ IH]; [reflexivity|]. cbn. rewrite Hx. exact IH. }
    rewrite Ef in P. inversion P; subst. cbn. apply app_nil_r.
Qed.
Print Assumptions C107_silent.

Lemma digits_no_break s : decimal_digits s -> ~ In 10 s.
Proof.
  intros H I. unfold decimal_digits in H. decompose [and] H. clear H.
  match goal with F : Forall _ s |- _ => rewrite Forall_forall in F; specialize (F 10 I); cbn in F; lia end.
Qed.
Lemma decimal_no_break s z : decimal_of s z -> ~ In 10 s.
Proof. intros [(_ & H & _)|(_ & s' & -> & H & _)]; [apply digits_no_break, H|]. intros [X|X]; [discriminate|]. eapply digits_no_break; eauto. Qed.
(** A report is one line, unless there is a line break in what is dropped. *)
Theorem C107_one_line_partial : forall raw cs pos display s printed,
  complains raw cs pos display s printed -> ~ In 10 (display (sub_list raw (pos (s_from s)) (pos (s_to s)))) -> one_printed_line printed.
Proof.
  intros raw cs pos display s printed (c & _ & l & d & A & B & ->) N. apply decimal_no_break in A, B.
  eexists. split; [rewrite !app_assoc; reflexivity|]. rewrite !in_app_iff. intros X.
  repeat (destruct X as [X|X]; [|try (cbn in X; lia)]); try contradiction; cbn in X; lia.
Qed.
Print Assumptions C107_one_line_partial.

(** ** The whole of a text *)
Lemma scan_from p a cs from k c m s m' : scans p a cs from k c m s m' -> (from <= k)%nat -> s_from s = from /\ (from <= s_to s)%nat.
Proof. induction 1; intros; cbn [s_from s_to] in *; try (split; [reflexivity | lia]). apply IHscans. lia. Qed.
Lemma obeyed_type xs : forall c m t c' m', obey_all xs c m = Asked (AsType t) c' m' -> In (LexerTypeAction t) xs.
Proof.
  intros c m t c' m'. unfold obey_all.
  assert (G : forall s, asked_for (fold_left obey xs s) = AsType t -> asked_for s = AsType t \/ In (LexerTypeAction t) xs).
  { induction xs as [|x xs IH]; intros s H; [left; exact H|]. cbn in H. destruct (IH _ H) as [X|X]; [|right; right; exact X].
    destruct s as [v c0 m0], x; cbn in X; auto; try discriminate. injection X as ->. right. left. reflexivity. }
  intros H. destruct (G (Asked AsDeclared c m)) as [X|X]; [rewrite H; reflexivity | discriminate X | exact X].
Qed.
Lemma scan_eof p a cs from k c m s m' : eof_reserved a -> scans p a cs from k c m s m' -> TextSpec.ends_input s -> s_to s = length cs.
Proof.
  intros (E1 & E2) H. induction H as [k c m n ty xs c' m' (rule & _ & (q & _ & T) & _) O|k c m n ty xs t c' m' (rule & _ & _ & (q & i & s & _ & R & _)) O| | |? ? ?|]; intros X; try contradiction; auto.
  - cbn in X. subst ty. exfalso. exact (E1 _ (LexTotalProofs.item_in _ _ _ T) eq_refl).
  - cbn in X. subst t. exfalso. refine (E2 _ _ eq_refl). eapply LexTotalProofs.run_actions; [exact R|]. eapply obeyed_type; exact O.
Qed.
Lemma produced_tiles p a cs d k m n ss : eof_reserved a -> produces p a cs d k m n ss -> (d = true -> k = length cs) ->
  forall ss' last, ss = ss' ++ [last] -> TextSpec.ends_input last -> tiles k ss (length cs).
Proof.
  intros ER H. induction H as [d k m|k m n ss H IH|k m ty c from to m' n ss Sc H IH|k m from to e m' n ss Sc He H IH]; intros Dk ss' last Es El.
  - destruct ss'; discriminate.
  - cbn. split; [reflexivity|]. split; [lia|]. destruct ss' as [|x ss']; cbn in Es; injection Es as <- ->; [|eapply IH; eauto]. cbn. auto.
  - destruct (scan_from _ _ _ _ _ _ _ _ _ Sc) as (F & T); [lia|]. cbn in F, T. cbn. split; [exact F|]. split; [exact T|].
    destruct ss' as [|x ss']; cbn in Es; injection Es as <- ->; [|eapply IH; eauto; intros X; now apply Nat.eqb_eq].
    cbn. exact (scan_eof _ _ _ _ _ _ _ _ _ ER Sc El).
  - destruct (scan_from _ _ _ _ _ _ _ _ _ Sc) as (F & T); [lia|]. cbn in F, T. cbn. split; [exact F|]. split; [exact T|].
    destruct ss' as [|x ss']; cbn in Es; injection Es as <- ->; [|eapply IH; eauto; intros X; now apply Nat.eqb_eq].
    cbn. exact (scan_eof _ _ _ _ _ _ _ _ _ ER Sc El).
Qed.
(** Everything in a text, up to its end, is in one of the stretches of its reading: a token, skipped, or reported. *)
Theorem C107_tiled : forall a cs ss last, eof_reserved a -> TextSpec.reads_text a cs ss last -> tiles 0 (ss ++ [last]) (length cs).
Proof. intros a cs ss last ER (n & L & El & _). eapply produced_tiles; eauto. discriminate. Qed.
Print Assumptions C107_tiled.

Lemma tiles_le ss : forall k e, tiles k ss e -> (k <= e)%nat.
Proof. induction ss as [|s ss IH]; cbn; intros k e H; [lia|]. destruct H as (_ & L & T). specialize (IH _ _ T). lia. Qed.
Lemma tiles_join (raw : list Z) (pos : nat -> Z) e : 0 <= pos 0%nat -> (forall i j, (i <= j <= e)%nat -> pos i <= pos j) -> pos e <= zlen raw ->
  forall ss k, tiles k ss e -> concat (map (fun s => sub_list raw (pos (s_from s)) (pos (s_to s))) ss) = sub_list raw (pos k) (pos e).
Proof.
  intros P0 Mo Le. induction ss as [|s ss IH]; cbn; intros k T.
  - subst k. unfold sub_list. rewrite Z.sub_diag. reflexivity.
  - destruct T as (-> & L & T). pose proof (tiles_le _ _ _ T). rewrite (IH _ T). apply WholeProofs.sub_list_join.
    + specialize (Mo 0%nat k). lia.
    + apply Mo. lia.
    + apply Mo. lia.
    + exact Le.
Qed.
(** Put together in order, what the stretches cover is the input, unit by unit. *)
Theorem C107_rejoined : forall D raw cs pos a ss last, text_source D raw cs pos -> eof_reserved a -> TextSpec.reads_text a cs ss last ->
  concat (map (fun s => sub_list raw (pos (s_from s)) (pos (s_to s))) (ss ++ [last])) = raw.
Proof.
  intros D raw cs pos a ss last TS ER RT. pose proof (C107_tiled _ _ _ _ ER RT) as T.
  destruct TS as [cs V|cs V].
  - rewrite (tiles_join cs Z.of_nat (length cs)) with (k := 0%nat); auto; try (unfold zlen; lia).
    unfold sub_list. cbn [Z.of_nat Z.to_nat skipn]. rewrite Z.sub_0_r, Nat2Z.id. apply firstn_all.
  - assert (P0 : byte_pos cs 0 = 0) by apply CharStreamProofs.byte_pos_0.
    assert (Pe : byte_pos cs (length cs) = zlen (encode_all cs)) by (unfold byte_pos; now rewrite firstn_all).
    rewrite (tiles_join (encode_all cs) (byte_pos cs) (length cs)) with (k := 0%nat); auto; try lia.
    + rewrite P0, Pe. unfold sub_list, zlen. cbn [Z.to_nat skipn]. rewrite Z.sub_0_r, Nat2Z.id. apply firstn_all.
    + intros i j L. destruct (Nat.eq_dec i j) as [->|N]; [lia|]. apply Z.lt_le_incl, CharStreamProofs.byte_pos_mono; [exact V | lia].
Qed.
Print Assumptions C107_rejoined.

(** If the console of the lexer is silent and the parser tells of no error, then all of the text is tokens and
    what is skipped, and what the parser read of its channel is in the language of the rule: all of it, if the rule
    went on to the end of the input.  (C99_accepted alone says nothing of what the lexer dropped.) *)
Theorem C107_all_well : forall D raw cs pos U la action lsempred before_emit ctx_hash actions_hash configs_hash s u lfuel toks last l' s' display world,
  lazy_reference_class D raw cs pos U la action lsempred before_emit ctx_hash actions_hash configs_hash -> eof_reserved la ->
  warmed D U la action lsempred ctx_hash actions_hash configs_hash s -> cache_fits s' ->
  LexerModel.next_tokens D U la action lsempred before_emit ctx_hash actions_hash configs_hash lfuel (length (toks ++ [last])) (new_base_lexer U (stream_new raw) u) s = Val (toks ++ [last], l', s') ->
  FactoryModel.token_type last = -1 -> Forall (fun t => FactoryModel.token_type t <> -1) toks ->
  In ConsoleErrorListener (w_listeners world) -> w_stderr (told_of_lexer display (lx_errors U l') world) = w_stderr world ->
  exists ss lst, TextSpec.reads_text la cs ss lst /\ tiles 0 (ss ++ [lst]) (length cs) /\
    Forall (fun x => s_ending x = Skipped \/ exists ty c, s_ending x = Made ty c) (ss ++ [lst]) /\
  forall chan, TextSpec.opens_on chan (ss ++ [lst]) ->
  forall sfuel a names sempred order alt_order hash dhash share clock mode plan switch plain recursive pred pred_text pred_message fuel n rule start g p ds g' p' ds',
  (length toks <= sfuel)%nat -> RecSpec.rec_plan_kinds plan -> GenSpec.known_types a (TextSpec.types_on chan ss) -> ParserModel.p_input p = TokenStreamModel.with_channel (WholeSpec.lexed toks last) ->
  RecModel.parse (PredictModel.common_seek (WholeSpec.lexed toks last) chan sfuel) a names sempred order alt_order hash dhash share clock mode plan switch plain recursive pred pred_text pred_message fuel n rule start g p ds = Val (g', p', ds', GenModel.Ended) ->
  ParserModel.in_error_recovery_mode g = false -> ParserModel.p_notices p' = ParserModel.p_notices p ->
  exists v rest k stop st, TextSpec.types_on chan ss = v ++ rest /\ (k <> 0%nat -> rest = []) /\ state_at a stop = Some st /\ Ll1Spec.is_stop st /\
    RecSpec.derives a recursive (fun r i => exists q f, pred q f r i = true) (if recursive rule then 0 else ParserModel.get_precedence p) start (v ++ repeat TOKEN_EOF k) stop.
Proof.
  intros D raw cs pos U la action lsempred be ch ah sh s u lfuel toks last l' s' display world RC ER W F E Tl NT C Q.
  destruct (TextProps.reading_of _ _ _ _ _ _ _ _ _ _ _ _ _ _ _ _ _ _ _ RC W F E Tl NT) as (ss & lst & RT & S & SL & R). exists ss, lst. split; [exact RT|].
  split; [eapply C107_tiled; eauto|]. destruct RT as (m & L & EL & NE).
  assert (Er : lx_errors U l' = []).
  { destruct (ErrorListenerProps.C83_lexer_told display (lx_errors U l') world) as (printed & P & P1 & _). rewrite P1 in Q. destruct (one_console _ C) as (k & Ek). rewrite Ek in Q.
    rewrite <- (app_nil_r (w_stderr world)) in Q at 2. apply app_inv_head in Q. inversion P as [|[[line column] text] x es xs (? & ? & _ & _ & ->) _ Ee Ep]; [reflexivity|]. subst. discriminate Q. }
  rewrite Er in R. destruct (filter reported ss) as [|y ys] eqn:Ef; [|inversion R]. split.
  { apply Forall_app. split.
    - apply Forall_forall. intros x I. destruct (s_ending x) as [ty c| |] eqn:Ex; [right; eauto | left; reflexivity|].
      exfalso. assert (I' : In x (filter reported ss)) by (apply filter_In; split; [exact I | unfold reported; now rewrite Ex]). rewrite Ef in I'. exact I'.
    - constructor; [|constructor]. right. destruct SL as (ty & c & X & _). eauto. }
  intros chan Op sfuel a names sempred order alt_order hash dhash share clock mode plan switch plain recursive pred pred_text pred_message fuel n rule start g p ds g' p' ds' Sf PK Kt Hi H M N.
  destruct (TextProps.reading_ahead _ _ _ _ _ _ _ _ S SL EL NE Op) as (Ne & V & A). specialize (A sfuel). rewrite <- Hi in A.
  destruct (RecProps.C94_sound _ chan sfuel _ Ne Sf a names sempred order alt_order hash dhash share clock mode plan switch plain recursive pred pred_text pred_message fuel n rule start g p ds g' p' ds' _ PK H M N A Kt)
    as (v & rest & k & stop & st & Q1 & _ & Q2 & Q3 & Q4 & Q5). exists v, rest, k, stop, st. auto.
Qed.
Print Assumptions C107_all_well.

(** ** The keyword grammar of C33 on "if", line break, "x1": the line break and the 1 match nothing. *)
Definition kw_broken : list Z := [105; 102; 10; 120; 49].
Notation kw_lexed fuel n :=
  (LexerModel.next_tokens slice_data unit kw_atn LexerProps.no_action LexerProps.no_sempred (fun l => l) (fun _ => 0) (fun _ => 0) ideal_hash
     fuel n (new_base_lexer unit (stream_new kw_broken) tt) (new_sim kw_atn)).
Definition kw_said : text :=
  lit "line 1:2 token recognition error at: '" ++ [10] ++ lit "'" ++ [10] ++ lit "line 2:1 token recognition error at: '1'" ++ [10].
Lemma kw_broken_class : lazy_reference_class slice_data kw_broken kw_broken Z.of_nat unit kw_atn LexerProps.no_action LexerProps.no_sempred (fun l => l) (fun _ => 0) (fun _ => 0) ideal_hash.
Proof. apply TextProps.kw_text_class; [repeat constructor | constructor; repeat constructor; discriminate]. Qed.
Lemma kw_lexed_val : exists ts l s, kw_lexed 40%nat 3%nat = Val (ts, l, s) /\ cache_fits s /\ length (lx_errors unit l) = 2%nat /\
  w_stderr (told_of_lexer display_slice (lx_errors unit l) new_world) = kw_said.
Proof.
  destruct (kw_lexed 40%nat 3%nat) as [[[ts l] s]| |] eqn:E; [|vm_compute in E; discriminate ..]. exists ts, l, s. split; [reflexivity|].
  vm_compute in E. injection E as <- <- <-. split; [intros d [<-|[]]; vm_compute; reflexivity|]. split; vm_compute; reflexivity.
Qed.
(** Unlike those of the parser (C82), the lexer's reports are not one line each: what is dropped is printed as it is. *)
Theorem C107_one_line_refuted :
  ~ (forall D raw cs pos U a action sempred before_emit ctx_hash actions_hash configs_hash s u fuel n ts l' s' display,
     lazy_reference_class D raw cs pos U a action sempred before_emit ctx_hash actions_hash configs_hash ->
     warmed D U a action sempred ctx_hash actions_hash configs_hash s -> cache_fits s' ->
     LexerModel.next_tokens D U a action sempred before_emit ctx_hash actions_hash configs_hash fuel n (new_base_lexer U (stream_new raw) u) s = Val (ts, l', s') ->
     exists lines, w_stderr (told_of_lexer display (lx_errors U l') new_world) = concat lines /\ length lines = length (lx_errors U l') /\ Forall one_printed_line lines).
Proof.
  intros H. destruct kw_lexed_val as (ts & l & s & E & F & N & S).
  destruct (H _ _ _ _ _ _ _ _ _ _ _ _ _ _ _ _ _ _ _ display_slice kw_broken_class (warmed_new _ _ _ _ _ _ _ _) F E) as (lines & P & L & O).
  rewrite S in P. rewrite N in L. destruct lines as [|x [|y [|z lines]]]; try discriminate L. cbn in P. rewrite app_nil_r in P.
  inversion O as [|? ? (lx & -> & Nx) O2]; subst. inversion O2 as [|? ? (ly & -> & Ny) _]; subst. clear - P Nx Ny.
  assert (C : count_occ Z.eq_dec kw_said 10 = 3%nat) by (vm_compute; reflexivity).
  rewrite P, !count_occ_app in C. rewrite (proj1 (count_occ_not_In Z.eq_dec lx 10) Nx), (proj1 (count_occ_not_In Z.eq_dec ly 10) Ny) in C. discriminate C.
Qed.
Print Assumptions C107_one_line_refuted.

Example C107_nonvacuous :
  lazy_reference_class slice_data kw_broken kw_broken Z.of_nat unit kw_atn LexerProps.no_action LexerProps.no_sempred (fun l => l) (fun _ => 0) (fun _ => 0) ideal_hash /\
  greedy_or_delimited kw_atn /\
  warmed slice_data unit kw_atn LexerProps.no_action LexerProps.no_sempred (fun _ => 0) (fun _ => 0) ideal_hash (new_sim kw_atn) /\
  In ConsoleErrorListener (w_listeners new_world) /\
  (exists ts l s, kw_lexed 40%nat 3%nat = Val (ts, l, s) /\ cache_fits s /\ length (lx_errors unit l) = 2%nat /\
     w_stderr (told_of_lexer display_slice (lx_errors unit l) new_world) = kw_said) /\
  (exists ss, lexes_lazily kw_atn kw_broken 3 ss /\ length (filter reported ss) = 2%nat) /\
  complains kw_broken kw_broken Z.of_nat display_slice (Stretch 4 5 Reported) (lit "line 2:1 token recognition error at: '1'" ++ [10]).
Proof.
  split; [exact kw_broken_class|]. split; [apply greedy_or, kw_greedy|]. split; [constructor|]. split; [left; reflexivity|]. split; [exact kw_lexed_val|]. split.
  - destruct kw_lexed_val as (ts & l & s & E & F & N & _).
    destruct (C106_tokens _ _ _ _ _ _ _ _ _ _ _ _ _ _ _ _ _ _ _ kw_broken_class (warmed_new _ _ _ _ _ _ _ _) F E) as (ss & L & _ & R).
    exists ss. split; [exact L|]. rewrite <- N. clear - R. induction R; cbn; congruence.
  - exists 1. split; [exists [105; 102; 10], [120]; repeat split; [intros [X|[]]; discriminate | right; exists [105; 102]; reflexivity]|].
    exists (lit "2"), (lit "1"). split; [exact (TreeProofs.isize_to_string_ok 2)|]. split; [exact (TreeProofs.isize_to_string_ok 1)|]. reflexivity.
Qed.

(** The lexer of C99 on "if x", which prints nothing, with the parser of C99, which reads to the end. *)
Notation if_x_lexed := (LexerModel.next_tokens slice_data unit kw_atn LexerProps.no_action LexerProps.no_sempred (fun l => l) (fun _ => 0) (fun _ => 0) ideal_hash
  40 3 (new_base_lexer unit (stream_new TextProps.if_x) tt) (new_sim kw_atn)).
Notation if_x_parsed toks last := (RecModel.parse (PredictModel.common_seek (WholeSpec.lexed toks last) 0 50) GenDemo.opt_atn ParserDemo.demo_names (fun _ _ _ _ => true) PredictDemo.plain_order PredictDemo.plain_alts PredictLLDemo.one_hash PredictDemo.no_dhash PredictDemo.no_share
  (fun _ => 0%nat) ConfigSetModel.LL GenDemo.opt_plan GenDemo.no_switch (fun _ => false) (fun _ => false) (fun _ _ _ _ => true) (fun _ _ => []) (fun _ _ => None) 100 100 0 0 (ParserModel.Default ParserModel.new_dstrategy) (ParserModel.new_base_parser (TokenStreamModel.with_channel (WholeSpec.lexed toks last))) (GenDemo.new_dfas GenDemo.opt_atn)).
Example C107_all_well_nonvacuous :
  lazy_reference_class slice_data TextProps.if_x TextProps.if_x Z.of_nat unit kw_atn LexerProps.no_action LexerProps.no_sempred (fun l => l) (fun _ => 0) (fun _ => 0) ideal_hash /\
  eof_reserved kw_atn /\ In ConsoleErrorListener (w_listeners new_world) /\ RecSpec.rec_plan_kinds GenDemo.opt_plan /\ GenSpec.known_types GenDemo.opt_atn [1; 2] /\
  exists t1 t2 t3 l s, if_x_lexed = Val ([t1; t2] ++ [t3], l, s) /\ cache_fits s /\ map FactoryModel.token_type [t1; t2; t3] = [1; 2; -1] /\ map FactoryModel.channel [t1; t2; t3] = [0; 0; 0] /\
    w_stderr (told_of_lexer display_slice (lx_errors unit l) new_world) = w_stderr new_world /\
    match if_x_parsed [t1; t2] t3 with Val (_, p', _, GenModel.Ended) => ParserModel.p_notices p' = [] | _ => False end.
Proof.
  split; [apply TextProps.kw_text_class; [repeat constructor | constructor; repeat constructor; discriminate]|].
  split. { split; intros ty I; cbn in I; repeat (destruct I as [X|I]; [first [discriminate X | subst ty; discriminate]|]); contradiction. }
  split; [left; reflexivity|]. split; [intros from i; unfold GenDemo.opt_plan; destruct (i =? 8); repeat constructor|]. split; [repeat constructor; discriminate|].
  destruct if_x_lexed as [[[ts l] s]| |] eqn:E; [|vm_compute in E; discriminate ..].
  vm_compute in E. injection E as <- <- <-. do 5 eexists. split; [reflexivity|]. split; [intros d [<-|[]]; vm_compute; reflexivity|].
  split; [reflexivity|]. split; [reflexivity|]. split; vm_compute; reflexivity.
Qed.
