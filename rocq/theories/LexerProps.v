(** Properties of the lexer: C36, C38-C42, C77. *)
From Coq Require Import ZArith List Bool Lia Sorted.
From Verif Require Import Outcome CharStreamModel CharStreamSpec CharStreamProofs PredContextModel ConfigSetModel
  DfaModel AtnModel LexerModel LexerSpec LexerProofs.
From Verif Require FactoryModel FactoryProofs.
Import ListNotations.
Local Open Scope Z_scope.

(** ** A lexer grammar for the examples:
    words of letters, a newline (skipped), a double quote (more), a number sign with an action. *)
Definition st (rule number : Z) (ty : state_type) (ts : list transition) : atn_state :=
  AState rule number 0 ty ts (match ts with [] => false | _ => forallb is_epsilon ts end).
Definition demo_atn : atn := Atn [0] LEXER [LexerSkipAction; LexerMoreAction; LexerCustomAction 3 0] 4 [0] [1; 3; 5; 7] [2; 4; 6; 8] [1; 2; 3; 4]
  [ st 0 0 (DecisionState 0 false TokenStartState) [Epsilon 1 (-1); Epsilon 3 (-1); Epsilon 5 (-1); Epsilon 7 (-1)];
    st 0 1 (RuleStartState 2 false) [Epsilon 9 (-1)];
    st 0 2 RuleStopState [];
    st 1 3 (RuleStartState 4 false) [Epsilon 11 (-1)];
    st 1 4 RuleStopState [];
    st 2 5 (RuleStartState 6 false) [Epsilon 13 (-1)];
    st 2 6 RuleStopState [];
    st 3 7 (RuleStartState 8 false) [Epsilon 15 (-1)];
    st 3 8 RuleStopState [];
    st 0 9 BasicState [Range 10 97 122];
    st 0 10 (DecisionState 1 false PlusLoopBack) [Epsilon 9 (-1); Epsilon 2 (-1)];
    st 1 11 BasicState [Atom 12 10];
    st 1 12 BasicState [Action 4 false 1 0 0];
    st 2 13 BasicState [Atom 14 34];
    st 2 14 BasicState [Action 6 false 2 1 0];
    st 3 15 BasicState [Atom 16 35];
    st 3 16 BasicState [Action 8 false 3 2 0] ].
Definition demo_hash (cs : list (config hashed)) : Z := fold_left (fun h c => h * 1000 + c_state c + 1) cs 0.
Definition no_action (r i : Z) (l : lexer unit) : lexer unit := l.
Definition no_sempred (r i : Z) (l : lexer unit) : bool * lexer unit := (true, l).
Definition no_hook (l : lexer unit) : lexer unit := l.
Definition demo_run (D : input_data) (raw : list Z) (action : Z -> Z -> lexer unit -> lexer unit) (n : nat) :=
  next_tokens D unit demo_atn action no_sempred no_hook (fun _ => 0) (fun _ => 0) demo_hash 40 n
    (new_base_lexer unit (stream_new raw) tt) (new_sim demo_atn).

(** ** C36 *)
Theorem C36_positions : forall D raw cs pos U a action sempred before_emit ch ah sh fuel n u s ts l' s',
  text_source D raw cs pos -> place_keeping action sempred before_emit -> no_own_tokens action ->
  next_tokens D U a action sempred before_emit ch ah sh fuel n (new_base_lexer U (stream_new raw) u) s = Val (ts, l', s') ->
  Forall (fun t => exists k, (k <= length cs)%nat /\ FactoryModel.start t = pos k /\
            FactoryModel.line t = line_after (firstn k cs) /\ column_after (firstn k cs) (FactoryModel.column t)) ts.
Proof.
  intros D raw cs pos U a action sempred before_emit ch ah sh fuel n u s ts l' s' TS K N H.
  destruct (tokens_ok D U a action sempred before_emit ch ah sh K raw cs pos TS N fuel n _ s 0%nat ts l' s'
              (between_start D U raw cs pos TS u) H) as (k' & es & eofs & ps & B & -> & E & F & FY & G & _).
  apply Forall_app. split.
  - clear - F. induction F as [|t p es ps (T1 & T2 & k & Tk & T3 & T4 & T5) F IH]; constructor; auto. exists k. rewrite T1. auto.
  - eapply Forall_impl; [|exact G]. intros t (_ & T1 & _ & k & Tk & T2 & T3 & T4). exists k. rewrite T1. auto.
Qed.
Print Assumptions C36_positions.

(** Lexers for whatever grammars, over the same text, agree on the position of tokens that start together. *)
Theorem C36_same_start_same_position : forall D raw cs pos, text_source D raw cs pos ->
  forall U a action sempred before_emit ch ah sh fuel n u s ts l1 s1, place_keeping action sempred before_emit -> no_own_tokens action ->
  next_tokens D U a action sempred before_emit ch ah sh fuel n (new_base_lexer U (stream_new raw) u) s = Val (ts, l1, s1) ->
  forall U' a' action' sempred' before_emit' ch' ah' sh' fuel' n' u' s' ts' l1' s1', place_keeping action' sempred' before_emit' -> no_own_tokens action' ->
  next_tokens D U' a' action' sempred' before_emit' ch' ah' sh' fuel' n' (new_base_lexer U' (stream_new raw) u') s' = Val (ts', l1', s1') ->
  forall t t', In t ts -> In t' ts' -> FactoryModel.start t = FactoryModel.start t' ->
  FactoryModel.line t = FactoryModel.line t' /\ FactoryModel.column t = FactoryModel.column t'.
Proof.
  intros D raw cs pos TS U a action sempred before_emit ch ah sh fuel n u s ts l1 s1 K N H
    U' a' action' sempred' before_emit' ch' ah' sh' fuel' n' u' s' ts' l1' s1' K' N' H' t t' I I' E.
  pose proof (C36_positions _ _ _ _ _ _ _ _ _ _ _ _ _ _ _ _ _ _ _ TS K N H) as F.
  pose proof (C36_positions _ _ _ _ _ _ _ _ _ _ _ _ _ _ _ _ _ _ _ TS K' N' H') as F'.
  rewrite Forall_forall in F, F'. destruct (F t I) as (k & A1 & A2 & A3 & A4), (F' t' I') as (k' & B1 & B2 & B3 & B4).
  assert (k = k') by (eapply pos_inj; eauto; congruence). subst k'. split; [congruence|]. eapply column_unique; eauto.
Qed.
Print Assumptions C36_same_start_same_position.

Example C36_nonvacuous :
  place_keeping no_action no_sempred no_hook /\ no_own_tokens no_action /\
  (let cs := [97; 10; 34; 10; 98; 99; 49; 100] in text_source slice_data cs cs Z.of_nat) /\
  match demo_run slice_data [97; 10; 34; 10; 98; 99; 49; 100] no_action 5 with
  | Val (ts, _, _) => map (fun t => (FactoryModel.token_type t, FactoryModel.start t, FactoryModel.stop t, FactoryModel.line t, FactoryModel.column t)) ts
      = [(1, 0, 0, 1, 0); (1, 4, 5, 3, 0); (1, 7, 7, 3, 3); (-1, 8, 7, 3, 4); (-1, 8, 7, 3, 4)]
  | _ => False
  end.
Proof.
  split. { split; [|split]; intros; repeat split; destruct l; reflexivity. }
  split. { intros r i l. reflexivity. }
  split. { constructor. repeat constructor; lia. }
  vm_compute. reflexivity.
Qed.

Lemma Forall2_impl' {A B} (P Q : A -> B -> Prop) xs ys : (forall x y, P x y -> Q x y) -> Forall2 P xs ys -> Forall2 Q xs ys.
Proof. intros H. induction 1; constructor; auto. Qed.

(** ** C38 *)
Theorem C38_tiling : forall D raw cs pos U a action sempred before_emit ch ah sh fuel n u s ts l' s',
  text_source D raw cs pos -> place_keeping action sempred before_emit -> no_own_tokens action ->
  next_tokens D U a action sempred before_emit ch ah sh fuel n (new_base_lexer U (stream_new raw) u) s = Val (ts, l', s') ->
  let ps := pieces None (lx_log U l') in
  exists k made eofs,
    (* the pieces cover the input up to where the lexer stands *)
    (k <= length cs)%nat /\ lx_input U l' = IStream raw (pos k) /\ tiles pos 0 ps k /\
    (forall i, (i < k)%nat -> exists j p, nth_error ps j = Some p /\ covers p (pos i) /\
       forall j' p', nth_error ps j' = Some p' -> covers p' (pos i) -> j' = j) /\
    (* the tokens are the emitted pieces, then end-of-input tokens once the whole input is covered *)
    ts = made ++ eofs /\ Forall2 (token_of cs pos) made (filter is_emitted ps) /\
    Forall (eof_token raw cs pos) eofs /\ (eofs <> [] -> k = length cs) /\
    StronglySorted (fun t t' => FactoryModel.stop t < FactoryModel.start t') made /\
    ((forall l, lx_type U (before_emit l) = lx_type U l) ->
       Forall2 (fun t p => FactoryModel.token_type t = p_type p) made (filter is_emitted ps)) /\
    (* the reports are the dropped pieces *)
    Forall2 (report_of raw cs pos) (lx_errors U l') (filter is_dropped ps).
Proof.
  intros D raw cs pos U a action sempred before_emit ch ah sh fuel n u s ts l' s' TS K N H ps.
  destruct (tokens_ok D U a action sempred before_emit ch ah sh K raw cs pos TS N fuel n _ s 0%nat ts l' s'
              (between_start D U raw cs pos TS u) H) as (k & es & eofs & qs & B & -> & E & F & FY & G & I & _).
  destruct B as ((A1 & A2 & A3) & C & W & HE & RS).
  assert (T : tiles pos 0 ps k) by (eapply pieces_tile; eauto).
  assert (E' : filter is_emitted ps = qs) by exact E.
  exists k, es, eofs. split; [exact A1|]. split; [exact A2|]. split; [exact T|]. split.
  { intros i Hi. eapply tiles_cover; eauto. lia. }
  split; [reflexivity|]. rewrite E'. split; [exact F|]. split; [exact G|]. split; [exact I|]. split; [|split; [|exact W]].
  2: { intros KY. eapply Forall2_impl'; [|exact FY]. intros t p X. apply X, KY. }
  eapply tokens_sorted; [exact F|]. rewrite <- E'. apply filter_sorted. eapply tiles_sorted; eauto.
Qed.
Print Assumptions C38_tiling.

(** The pieces follow the matches one to one, joined by [more]: the matches are contiguous, and
    a piece starts where the first of its matches does. *)
Theorem C38_matches_contiguous : forall D raw cs pos U a action sempred before_emit ch ah sh fuel n u s ts l' s',
  text_source D raw cs pos -> place_keeping action sempred before_emit -> no_own_tokens action ->
  next_tokens D U a action sempred before_emit ch ah sh fuel n (new_base_lexer U (stream_new raw) u) s = Val (ts, l', s') ->
  exists k, (k <= length cs)%nat /\ lx_input U l' = IStream raw (pos k) /\ contiguous pos 0 (lx_log U l') k.
Proof.
  intros D raw cs pos U a action sempred before_emit ch ah sh fuel n u s ts l' s' TS K N H.
  destruct (tokens_ok D U a action sempred before_emit ch ah sh K raw cs pos TS N fuel n _ s 0%nat ts l' s'
              (between_start D U raw cs pos TS u) H) as (k & es & eofs & qs & B & _).
  destruct B as ((A1 & A2 & A3) & C & _). eauto.
Qed.
Print Assumptions C38_matches_contiguous.

Example C38_nonvacuous :
  match demo_run slice_data [97; 10; 34; 34; 98; 99; 49; 100] no_action 4 with
  | Val (ts, l, _) =>
      pieces None (lx_log unit l) = [Piece 0 1 Emitted 1; Piece 1 2 Skipped (-3); Piece 2 6 Emitted 1; Piece 6 7 Dropped (-3); Piece 7 8 Emitted 1] /\
      lx_errors unit l = [(2, 4, [49])] /\ length (lx_log unit l) = 7%nat
  | _ => False
  end.
Proof. vm_compute. repeat split. Qed.

(** ** C77 *)
Theorem C77_token_text_code_points : forall cs U a action sempred before_emit ch ah sh fuel n u s ts l' s',
  Forall (fun c => 0 <= c) cs -> place_keeping action sempred before_emit -> no_own_tokens action -> no_own_text action sempred before_emit ->
  next_tokens slice_data U a action sempred before_emit ch ah sh fuel n (new_base_lexer U (stream_new cs) u) s = Val (ts, l', s') ->
  forall t, In t ts -> FactoryModel.start t <= FactoryModel.stop t ->
  exists i j, (i <= j < length cs)%nat /\ FactoryModel.start t = Z.of_nat i /\ FactoryModel.stop t = Z.of_nat j /\
    FactoryModel.tk_text t = firstn (S j - i) (skipn i cs).
Proof.
  intros cs U a action sempred before_emit ch ah sh fuel n u s ts l' s' V K N NT H t I Le.
  pose proof (code_points cs V) as TS.
  destruct (tokens_ok slice_data U a action sempred before_emit ch ah sh K cs cs Z.of_nat TS N fuel n _ s 0%nat ts l' s'
              (between_start slice_data U cs cs Z.of_nat TS u) H) as (k & es & eofs & qs & B & -> & E & F & FY & G & _ & T).
  specialize (T (text_kept _ _ _ _ _ _ _ _ _ NT)). apply in_app_iff in I. destruct I as [I|I].
  2: { rewrite Forall_forall in G. destruct (G t I) as (_ & G1 & G2 & _). lia. }
  destruct B as ((A1 & A2 & A3) & C & W & HE & RS).
  assert (Tl : tiles Z.of_nat 0 (pieces None (lx_log U l')) k) by (eapply pieces_tile; eauto).
  assert (E' : filter is_emitted (pieces None (lx_log U l')) = qs) by exact E. rewrite <- E' in F.
  destruct (made_ends _ _ _ _ _ Tl A1 es F t I Le) as (i & j & L & Ei & Ej).
  rewrite Forall_forall in T. specialize (T t I Le ltac:(unfold zlen; lia)). destruct T as (q & T).
  replace (Z.of_nat (S j) - 1) with (Z.of_nat j) in Ej by lia. rewrite Ei, Ej, slice_get_text in T by lia. inversion T as [X].
  exists i, j. auto.
Qed.
Print Assumptions C77_token_text_code_points.

(** Over a UTF-8 string, the text of a token is the encoding of the characters it covers. *)
Theorem C77_token_text_utf8 : forall cs U a action sempred before_emit ch ah sh fuel n u s ts l' s',
  Forall valid_char cs -> place_keeping action sempred before_emit -> no_own_tokens action -> no_own_text action sempred before_emit ->
  next_tokens str_data U a action sempred before_emit ch ah sh fuel n (new_base_lexer U (stream_new (encode_all cs)) u) s = Val (ts, l', s') ->
  forall t, In t ts -> FactoryModel.start t <= FactoryModel.stop t ->
  exists i j, (i <= j < length cs)%nat /\ FactoryModel.start t = byte_pos cs i /\ FactoryModel.stop t = byte_pos cs (S j) - 1 /\
    FactoryModel.tk_text t = encode_all (firstn (S j - i) (skipn i cs)).
Proof.
  intros cs U a action sempred before_emit ch ah sh fuel n u s ts l' s' V K N NT H t I Le.
  pose proof (utf8_string cs V) as TS.
  destruct (tokens_ok str_data U a action sempred before_emit ch ah sh K _ cs (byte_pos cs) TS N fuel n _ s 0%nat ts l' s'
              (between_start str_data U _ cs (byte_pos cs) TS u) H) as (k & es & eofs & qs & B & -> & E & F & FY & G & _ & T).
  specialize (T (text_kept _ _ _ _ _ _ _ _ _ NT)). apply in_app_iff in I. destruct I as [I|I].
  2: { rewrite Forall_forall in G. destruct (G t I) as (_ & G1 & G2 & _). lia. }
  destruct B as ((A1 & A2 & A3) & C & W & HE & RS).
  assert (Tl : tiles (byte_pos cs) 0 (pieces None (lx_log U l')) k) by (eapply pieces_tile; eauto).
  assert (E' : filter is_emitted (pieces None (lx_log U l')) = qs) by exact E. rewrite <- E' in F.
  destruct (made_ends _ _ _ _ _ Tl A1 es F t I Le) as (i & j & L & Ei & Ej).
  pose proof (pos_le _ _ _ _ TS (S j) (length cs) ltac:(lia)) as PL. rewrite (pos_len _ _ _ _ TS) in PL.
  rewrite Forall_forall in T. specialize (T t I Le ltac:(lia)). destruct T as (q & T).
  rewrite Ei, Ej, (FactoryProofs.str_text_bytes cs q i j) in T; [|exact V|lia|lia|].
  - inversion T as [X]. exists i, j. auto.
  - pose proof (pr_mono _ _ _ _ (source_presents _ _ _ _ TS) j (S j) ltac:(lia)). lia.
Qed.
Print Assumptions C77_token_text_utf8.

Example C77_nonvacuous :
  no_own_text no_action no_sempred no_hook /\
  match demo_run slice_data [97; 10; 34; 34; 98; 99; 49; 100] no_action 3 with
  | Val (ts, l, _) => map FactoryModel.tk_text ts = [[97]; [34; 34; 98; 99]; [100]]
  | _ => False
  end.
Proof. split; [repeat split | vm_compute; reflexivity]. Qed.

(** ** C39 *)
Theorem C39_push_pop : forall U (l : lexer U) m b, balanced b -> commands l (PushMode m :: b ++ [PopMode]) = l.
Proof. intros. apply push_pop. assumption. Qed.
Print Assumptions C39_push_pop.

Theorem C39_pop_tells_the_mode : forall U (l : lexer U) m b, balanced b ->
  pop_mode U (commands l (PushMode m :: b)) = (l, Some (lx_mode U l)).
Proof.
  intros U l m b B. destruct (balanced_stack b B (command l (PushMode m))) as (m' & E).
  change (commands l (PushMode m :: b)) with (commands (command l (PushMode m)) b). rewrite E. unfold pop_mode. cbn. rewrite vec_pop_app.
  destruct l; reflexivity.
Qed.
Print Assumptions C39_pop_tells_the_mode.

Theorem C39_push_enters : forall U (l : lexer U) m, lx_mode U (push_mode U l m) = m.
Proof. reflexivity. Qed.
Print Assumptions C39_push_enters.

Theorem C39_set_mode : forall U (l : lexer U) m, lx_mode U (set_mode U l m) = m /\ lx_mode_stack U (set_mode U l m) = lx_mode_stack U l.
Proof. split; reflexivity. Qed.
Print Assumptions C39_set_mode.

Theorem C39_pop_empty : forall U (l : lexer U), lx_mode_stack U l = [] -> pop_mode U l = (l, None).
Proof. intros U l E. unfold pop_mode. rewrite E. reflexivity. Qed.
Print Assumptions C39_pop_empty.

Example C39_nonvacuous : balanced ([PushMode 3] ++ ([SetMode 4] ++ PushMode 5 :: [] ++ [PopMode]) ++ [PopMode]) /\
  lx_mode unit (commands (new_base_lexer unit (stream_new []) tt) [PushMode 3; SetMode 4; PushMode 5]) = 5.
Proof. split; [|reflexivity]. apply (balanced_push 3). apply balanced_app; [constructor|]. apply balanced_push. constructor. Qed.

(** ** C40: refuted *)
Definition mine : FactoryModel.token := FactoryModel.Token 9 0 0 0 (-1) 1 0 [33] false.
Definition installs (r i : Z) (l : lexer unit) : lexer unit := with_token unit l (Some mine).
Definition second_try := next_token slice_data unit demo_atn installs no_sempred no_hook (fun _ => 0) (fun _ => 0) demo_hash 40
    (new_base_lexer unit (stream_new [35; 97]) tt) (new_sim demo_atn).
(** The action of HASH installs a token, and HASH does match; still the caller gets the next word. *)
Theorem C40_installed_token_refuted :
  (exists l s, inner_loop slice_data unit demo_atn installs no_sempred (fun _ => 0) (fun _ => 0) demo_hash 40 40
     (start_token unit (new_base_lexer unit (stream_new [35; 97]) tt)) (new_sim demo_atn) = Val (true, l, s) /\ lx_token unit l = Some mine) /\
  (exists t l s, second_try = Val (t, l, s) /\ t <> mine /\ FactoryModel.token_type t = 1 /\ FactoryModel.start t = 1).
Proof.
  split.
  - do 2 eexists. split; [vm_compute; reflexivity | reflexivity].
  - do 3 eexists. split; [vm_compute; reflexivity|]. split; [discriminate | split; reflexivity].
Qed.
Print Assumptions C40_installed_token_refuted.

(** Whatever the actions do, the token returned is one the lexer made. *)
Theorem C40_only_own_tokens_returned : forall D U a action sempred before_emit ch ah sh fuel l s t l' s',
  next_token D U a action sempred before_emit ch ah sh fuel l s = Val (t, l', s') ->
  exists l1 l2, (emit D U before_emit l1 = Val l2 \/ emit_eof D U l1 = Val l2) /\ lx_token U l2 = Some t.
Proof.
  intros D U a action sempred before_emit ch ah sh fuel l s t l' s' H. unfold next_token in H. step H ls E. destruct ls as [l1 s1].
  assert (G : forall n l, outer_loop D U a action sempred before_emit ch ah sh fuel n l s = Val (l1, s1) ->
     exists l0, emit D U before_emit l0 = Val l1 \/ emit_eof D U l0 = Val l1).
  { clear. intros n. revert s. induction n as [|n IH]; intros s l H; [discriminate|]. cbn [outer_loop] in H.
    destruct (lx_hit_eof U l); [step H l2 E; inversion H; subst; eauto|]. step H x E. destruct x as [[b l2] s2].
    destruct b; cbn [negb] in H; [|eauto]. destruct (lx_token U l2); [eauto|]. step H l3 E3. inversion H; subst. eauto. }
  destruct (G _ _ E) as (l0 & E0). step H t' Et. inversion H; subst. exists l0, l1. split; [exact E0|].
  destruct (lx_token U l1); inversion Et; reflexivity.
Qed.
Print Assumptions C40_only_own_tokens_returned.

(** ** C41 *)
Theorem C41_set_column_partial : forall U (l : lexer U) v,
  get_char_position_in_line U (set_char_position_in_line U l v) = v /\ get_line U (set_char_position_in_line U l v) = get_line U l.
Proof. split; reflexivity. Qed.
Print Assumptions C41_set_column_partial.

(** [set_line] leaves the line as it is and overwrites the column. *)
Theorem C41_set_line_refuted : forall U (l : lexer U) v,
  get_line U (set_line U l v) = get_line U l /\ get_char_position_in_line U (set_line U l v) = v.
Proof. split; reflexivity. Qed.
Print Assumptions C41_set_line_refuted.

Example C41_nonvacuous : exists l : lexer unit, get_line unit (set_line unit l 7) <> 7.
Proof. exists (new_base_lexer unit (stream_new []) tt). discriminate. Qed.

(** ** C42 *)
(** Executing runs the actions in order, each with the stream at its place, and ends where it began. *)
Theorem C42_execution : forall U action, (forall r i l, lx_input U (action r i l) = lx_input U l) -> forall e (l : lexer U) start,
  let stop := is_index (lx_input U l) in
  execute U action e l start =
    fold_left (fun l x => move_to (execute_action U action x (move_to l (place_of start stop x))) stop) (ex_actions e) l /\
  lx_input U (execute U action e l start) = lx_input U l.
Proof. intros U action stays e l start. split; [apply execute_ok, stays | apply execute_input, stays]. Qed.
Print Assumptions C42_execution.

(** What the closure does to the executor of a configuration. *)
Definition noting (actions_hash : list lexer_action -> Z) (start : Z) (e : option executor) (ev : rule_event) : option executor :=
  match ev with
  | Passed x => Some (new_copy_append actions_hash e x)
  | Consuming index => option_map (fun e => fix_offset_before_match e (index - start)) e
  end.
(** An action that was passed before a character was consumed is run where that character was
    consumed; all others at the end of the match. *)
Theorem C42_offsets : forall ah start es,
  match fold_left (noting ah start) es None with
  | Some e => ex_actions e
  | None => []
  end = map (fun p => match snd p with
                      | Some i => if is_position_dependent (fst p)
                                  then match fst p with LexerIndexedCustomAction _ _ => fst p | x => LexerIndexedCustomAction (i - start) x end
                                  else fst p
                      | None => fst p
                      end) (passed_at es).
Proof.
  intros ah start es.
  assert (G : forall es e, match fold_left (noting ah start) es e with Some e => ex_actions e | None => [] end =
     fold_left (collect start) es (match e with Some e => ex_actions e | None => [] end)).
  { clear. induction es as [|ev es IH]; intros e; cbn [fold_left]; [reflexivity|]. rewrite IH. f_equal.
    destruct ev; cbn; destruct e; reflexivity. }
  rewrite G, collect_ok. cbn [map app]. apply map_ext. intros (x & [i|]); cbn [fst snd]; unfold placed_action; cbn [fst snd]; [|reflexivity].
  destruct x; reflexivity.
Qed.
Print Assumptions C42_offsets.

Example C42_nonvacuous :
  let log := fun (r i : Z) (l : lexer (list Z)) => with_user _ l (is_index (lx_input _ l) :: lx_user _ l) in
  let l := move_to (new_base_lexer (list Z) (stream_new [97; 98; 99]) []) 3 in
  let xs := [LexerIndexedCustomAction 1 (LexerCustomAction 0 0); LexerSkipAction; LexerCustomAction 0 1; LexerIndexedCustomAction 2 (LexerCustomAction 0 0)] in
  lx_user _ (execute _ log (Executor 0 xs) l 0) = [2; 3; 1] /\ is_index (lx_input _ (execute _ log (Executor 0 xs) l 0)) = 3.
Proof. split; reflexivity. Qed.
