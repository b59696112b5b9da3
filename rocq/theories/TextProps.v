(** C99: from the text to the verdict.  The lexer and the parser put together accept a text
    exactly if the tokens that the grammar's lexer rules give for it are a sentence. *)
From Coq Require Import ZArith List Bool Lia.
From Coq Require Import ZifyBool ZifyNat.
From Verif Require Import CharStreamModel TokenStreamModel TokenStreamSpec TokenStreamProofs CommonTokenStreamProofs LexerModel LexerSpec LexMatchSpec.
From Verif Require LexerProps LexMatchProps LexTotalProps MunchProofs MunchProps LazyProps LazyLexProps FactoryModel RecModel RecSpec RecProps.
From Verif Require Import Outcome IntervalSetModel PredContextModel PredContextSpec SemContextModel ConfigSetModel DfaModel AtnModel AtnSpec Ll1Model Ll1Spec ParserModel PredictModel PredictSpec PredictLLSpec PredictTotalSpec PredictTotalStreamProofs.
From Verif Require Import GenModel GenSpec GenFuelProofs GenBailSpec GenBailProofs ParserDemo PredictDemo PredictLLDemo PredictTotalDemo PredictTotalProps GenDemo GenProps GenBailProps.
From Verif Require Import WholeSpec MunchSpec LazySpec LazyLexSpec TextSpec TextProofs.
Import ListNotations.
Local Open Scope Z_scope.

(** The lexers considered: those of C106 (those of C98, with non-greedy decisions, too) that cannot go on for ever without consuming. *)
Definition text_class D raw cs pos U a action sempred before_emit ctx_hash actions_hash configs_hash : Prop :=
  LazyLexProps.lazy_reference_class D raw cs pos U a action sempred before_emit ctx_hash actions_hash configs_hash /\
  LexTotalProps.progressing D raw cs pos U a action sempred before_emit ctx_hash actions_hash configs_hash.

(** ** C99 *)
(** Every text has one reading by the reference lexer, if every lexer rule is greedy, or an opening, as few
    characters as possible, and a closing. *)
Theorem C99_one_reading : forall a cs ss last ss' last', greedy_or_delimited a -> one_action_list a -> reads_text a cs ss last -> reads_text a cs ss' last' -> ss = ss' /\ last = last'.
Proof. exact text_unique. Qed.
Print Assumptions C99_one_reading.

Lemma reading_of D raw cs pos U a action sempred be ch ah sh s u fuel toks last l' s' :
  LazyLexProps.lazy_reference_class D raw cs pos U a action sempred be ch ah sh -> warmed D U a action sempred ch ah sh s -> cache_fits s' ->
  LexerModel.next_tokens D U a action sempred be ch ah sh fuel (length (toks ++ [last])) (new_base_lexer U (stream_new raw) u) s = Val (toks ++ [last], l', s') ->
  FactoryModel.token_type last = -1 -> Forall (fun t => FactoryModel.token_type t <> -1) toks ->
  exists ss lst, reads_text a cs ss lst /\
    Forall2 (shows raw cs pos) toks (filter made ss) /\ shows raw cs pos last lst /\ Forall2 (reports raw cs pos) (lx_errors U l') (filter reported ss).
Proof.
  intros RC W F E0 EL NE.
  destruct (LazyLexProps.C106_tokens _ _ _ _ _ _ _ _ _ _ _ _ _ _ _ _ _ _ _ RC W F E0) as (ss0 & L & S & R).
  destruct (produces_last _ _ _ _ _ _ _ _ L) as (ss & lst & -> & Ml); [rewrite app_length; cbn; lia|].
  rewrite filter_app in S. cbn [filter] in S. rewrite Ml in S. apply Forall2_app_inv_l in S as (x1 & x2 & S1 & S2 & Ex).
  assert (exists y, x2 = [y] /\ shows raw cs pos last y) as (y & -> & Sl). { inversion S2 as [|? y ? ? Hy Hn]; subst. inversion Hn; subst. eauto. }
  apply app_inj_tail in Ex as (<- & ->). exists ss, y. split; [|split; [exact S1|split; [exact Sl|]]].
  - exists (length (toks ++ [last])). split; [exact L|]. split.
    + destruct Sl as (ty & c & E & T & _). unfold ends_input. rewrite E. congruence.
    + apply Forall_forall. intros x I Ex. assert (Mx : In x (filter made ss)). { apply filter_In. split; [exact I|]. unfold ends_input in Ex. unfold made. destruct (s_ending x); auto; contradiction. }
      clear - S1 NE Mx Ex. induction S1 as [|t z ts zs H S1 IH]; [contradiction|]. inversion NE; subst. destruct Mx as [->|Mx]; [|auto].
      destruct H as (ty & c & E & T & _). unfold ends_input in Ex. rewrite E in Ex. congruence.
  - rewrite filter_app in R. cbn [filter] in R. unfold made in Ml. unfold reported in R at 2. destruct (s_ending y); try discriminate. now rewrite app_nil_r in R.
Qed.
(** The lexer gives the tokens of this reading, up to the end-of-input token. *)
Theorem C99_lexed : forall D raw cs pos U a action sempred before_emit ctx_hash actions_hash configs_hash s u,
  text_class D raw cs pos U a action sempred before_emit ctx_hash actions_hash configs_hash ->
  warmed D U a action sempred ctx_hash actions_hash configs_hash s ->
  exists toks last l' s' enough,
    (forall fuel, (enough <= fuel)%nat ->
       LexerModel.next_tokens D U a action sempred before_emit ctx_hash actions_hash configs_hash fuel (length (toks ++ [last])) (new_base_lexer U (stream_new raw) u) s = Val (toks ++ [last], l', s')) /\
    (cache_fits s' -> exists ss lst, reads_text a cs ss lst /\
       Forall2 (shows raw cs pos) toks (filter made ss) /\ shows raw cs pos last lst /\ Forall2 (reports raw cs pos) (lx_errors U l') (filter reported ss)).
Proof.
  intros D raw cs pos U a action sempred be ch ah sh s u (RC & PG) W.
  destruct (LexTotalProps.C37_ends_with_eof D raw cs pos U a action sempred be ch ah sh s u (Datatypes.S (Datatypes.S (length cs))) PG W) as (ts & l0 & s0 & Ln & (n0 & E0) & Ends & _).
  destruct (first_eof ts) as (toks & last & rest & -> & EL & NE).
  { destruct (nth_error ts (Datatypes.S (length cs))) as [t|] eqn:Et; [|apply nth_error_None in Et; lia]. exists t. split; [eapply nth_error_In; eauto|]. apply (Ends _ _ Et); lia. }
  destruct (LexTotalProps.C37_ends_with_eof D raw cs pos U a action sempred be ch ah sh s u (length (toks ++ [last])) PG W) as (ts1 & l' & s' & Ln1 & (n1 & E1) & _).
  assert (ts1 = toks ++ [last]) as ->.
  { assert (Le : (length (toks ++ [last]) <= Datatypes.S (Datatypes.S (length cs)))%nat) by (rewrite <- Ln, !app_length; cbn [length]; lia).
    destruct (fewer_tokens D U a action sempred be ch ah sh (Nat.max n0 n1) (length (toks ++ [last])) _ _ _ _ _ _ Le (E0 (Nat.max n0 n1) ltac:(lia))) as (l1 & s1 & E).
    rewrite (E1 (Nat.max n0 n1) ltac:(lia)) in E. injection E as -> _ _. change (last :: rest) with ([last] ++ rest). rewrite app_assoc, firstn_app, firstn_all, Nat.sub_diag. cbn [firstn]. apply app_nil_r. }
  exists toks, last, l', s', n1. split; [exact E1|]. intros F.
  eapply reading_of; eauto.
Qed.
Print Assumptions C99_lexed.

Lemma reading_ahead raw cs pos toks last ss lst chan : Forall2 (shows raw cs pos) toks (filter made ss) -> shows raw cs pos last lst ->
  ends_input lst -> Forall (fun s => ~ ends_input s) ss -> opens_on chan (ss ++ [lst]) ->
  eof_number (lexed toks last) (length toks) /\ starts_visible (lexed toks last) chan /\
  forall sfuel, ahead (lexed toks last) chan sfuel (TokenStreamModel.with_channel (lexed toks last)) (types_on chan ss).
Proof.
  intros S SL EL NE Op.
  assert (Tl : FactoryModel.token_type last = -1). { destruct SL as (ty & c & Q & T & _). unfold ends_input in EL. rewrite Q in EL. congruence. }
  assert (NM : Forall (fun s => ~ ends_input s) (filter made ss)). { rewrite Forall_forall in *. intros x I. apply filter_In in I. apply NE, I. }
  assert (Ne : eof_number (lexed toks last) (length toks)).
  { split; [unfold is_eof, lexed; rewrite nth_overflow by lia; exact Tl|]. intros i Hi0. unfold is_eof, lexed. intros X.
    assert (A : Forall (fun t => FactoryModel.token_type t <> -1) toks).
    { clear - S NM. induction S as [|t z ts zs H S IH]; constructor; inversion NM; subst; auto. destruct H as (ty & c & E & T & _). unfold ends_input in *. rewrite E in *. congruence. }
    rewrite Forall_forall in A. apply (A (nth i toks last)); [apply nth_In; lia | exact X]. }
  assert (V : t_channel (lexed toks last 0) = chan).
  { unfold opens_on in Op. rewrite filter_app in Op. cbn [filter] in Op. destruct S as [|t z ts zs H S]; cbn [app] in Op.
    - assert (made lst = true) as Ml by (unfold made; unfold ends_input in EL; destruct (s_ending lst); auto; contradiction). rewrite Ml in Op. destruct Op as (ty & Q).
      destruct SL as (ty' & c & Q' & _ & C & _). unfold lexed. cbn. rewrite Q in Q'. injection Q' as <- <-. exact C.
    - destruct Op as (ty & Q). destruct H as (ty' & c & Q' & _ & C & _). unfold lexed. cbn. rewrite Q in Q'. injection Q' as <- <-. exact C. }
  split; [exact Ne|]. split; [exact V|]. intros sfuel. split; [exists []; reflexivity|]. exists 0%nat. split; [reflexivity|]. rewrite <- types_made. eapply read_lexed; eauto.
Qed.

(** Any parser grammar (left recursion and predicates included), any decisions and error strategy: if
    the parser reads the tokens of the text, and ends without telling of an error, then what it read
    of the channel is in the language of the rule (C94), all of it if the rule went on to the end of
    the input. *)
Theorem C99_accepted : forall D raw cs pos U la action lsempred before_emit ctx_hash actions_hash configs_hash s u lfuel toks last l' s',
  LazyLexProps.lazy_reference_class D raw cs pos U la action lsempred before_emit ctx_hash actions_hash configs_hash ->
  warmed D U la action lsempred ctx_hash actions_hash configs_hash s -> cache_fits s' ->
  LexerModel.next_tokens D U la action lsempred before_emit ctx_hash actions_hash configs_hash lfuel (length (toks ++ [last])) (new_base_lexer U (stream_new raw) u) s = Val (toks ++ [last], l', s') ->
  FactoryModel.token_type last = -1 -> Forall (fun t => FactoryModel.token_type t <> -1) toks ->
  exists ss lst, reads_text la cs ss lst /\
  forall chan, opens_on chan (ss ++ [lst]) ->
  forall sfuel a names sempred order alt_order hash dhash share clock mode plan switch plain recursive pred pred_text pred_message fuel n rule start g p ds g' p' ds',
  (length toks <= sfuel)%nat -> RecSpec.rec_plan_kinds plan -> known_types a (types_on chan ss) -> p_input p = TokenStreamModel.with_channel (lexed toks last) ->
  RecModel.parse (common_seek (lexed toks last) chan sfuel) a names sempred order alt_order hash dhash share clock mode plan switch plain recursive pred pred_text pred_message fuel n rule start g p ds = Val (g', p', ds', Ended) ->
  in_error_recovery_mode g = false -> p_notices p' = p_notices p ->
  exists v rest k stop st, types_on chan ss = v ++ rest /\ (k <> 0%nat -> rest = []) /\ state_at a stop = Some st /\ Ll1Spec.is_stop st /\
    RecSpec.derives a recursive (fun r i => exists q f, pred q f r i = true) (if recursive rule then 0 else get_precedence p) start (v ++ repeat TOKEN_EOF k) stop.
Proof.
  intros D raw cs pos U la action lsempred be ch ah sh s u lfuel toks last l' s' RC W F E Tl NT.
  destruct (reading_of _ _ _ _ _ _ _ _ _ _ _ _ _ _ _ _ _ _ _ RC W F E Tl NT) as (ss & lst & RT & S & SL & _). exists ss, lst. split; [exact RT|]. destruct RT as (m & L & EL & NE).
  intros chan Op sfuel a names sempred order alt_order hash dhash share clock mode plan switch plain recursive pred pred_text pred_message fuel n rule start g p ds g' p' ds' Sf PK Kt Hi H M N.
  destruct (reading_ahead _ _ _ _ _ _ _ _ S SL EL NE Op) as (Ne & V & A). specialize (A sfuel). rewrite <- Hi in A.
  destruct (RecProps.C94_sound _ chan sfuel _ Ne Sf a names sempred order alt_order hash dhash share clock mode plan switch plain recursive pred pred_text pred_message fuel n rule start g p ds g' p' ds' _ PK H M N A Kt)
    as (v & rest & k & stop & st & Q1 & _ & Q2 & Q3 & Q4 & Q5). exists v, rest, k, stop, st. auto.
Qed.
Print Assumptions C99_accepted.

(** A generated parser with the bail-out strategy reads the channel [chan] of these tokens: it comes
    back, normally exactly if the types of the tokens on the channel are a sentence.
    What is missing: the restrictions on grammars and DFAs of C86 and C106. *)
Theorem C99_text_decided_partial : forall D raw cs pos U la action lsempred before_emit ctx_hash actions_hash configs_hash s u,
  text_class D raw cs pos U la action lsempred before_emit ctx_hash actions_hash configs_hash ->
  warmed D U la action lsempred ctx_hash actions_hash configs_hash s ->
  forall a main, simple_grammar a main -> one_stop a -> one_start a -> no_stall a ->
  forall plan switch, plan_ok a plan -> decisions_ok a switch -> tests_in_range a switch -> switches_ok a main switch ->
  forall order alt_order hash dhash share, orders_ok order alt_order -> contexts_ok hash share ->
  exists toks last l' s' enough,
    (forall fuel, (enough <= fuel)%nat ->
       LexerModel.next_tokens D U la action lsempred before_emit ctx_hash actions_hash configs_hash fuel (length (toks ++ [last])) (new_base_lexer U (stream_new raw) u) s = Val (toks ++ [last], l', s')) /\
    (cache_fits s' -> exists ss lst, reads_text la cs ss lst /\
       forall chan, opens_on chan (ss ++ [lst]) -> token_types a (types_on chan ss) -> known_types a (types_on chan ss) ->
       forall sfuel, (length toks <= sfuel)%nat -> forall names sempred clock mode plain, mode <> SLL ->
       forall rule start d p ds, exists_state a start -> Ll1Spec.rule_of a start = main -> reads_eof a start ->
       recovering d = false -> outside p -> dfas_ok a order alt_order hash dhash share ds -> p_input p = TokenStreamModel.with_channel (lexed toks last) ->
       exists enough g' p' ds' r,
         (forall fuel, (enough <= fuel)%nat ->
            parse (common_seek (lexed toks last) chan sfuel) a names sempred order alt_order hash dhash share clock mode plan switch plain fuel rule start (Bail d) p ds = Val (g', p', ds', r)) /\
         (r = Full \/
          r = Ended /\ (exists n, completes a n (start, []) (types_on chan ss)) \/
          (exists c, r = Raised (FallThrough (Some c))) /\ ~ (exists n, completes a n (start, []) (types_on chan ss)))).
Proof.
  intros D raw cs pos U la action lsempred be ch ah sh s u TC W a main Hg H1 H2 NS plan switch Hp Hd Ht Hs order alt_order hash dhash share Ho Hc.
  destruct (C99_lexed D raw cs pos U la action lsempred be ch ah sh s u TC W) as (toks & last & l' & s' & n & E & K). exists toks, last, l', s', n. split; [exact E|]. intros F.
  destruct (K F) as (ss & lst & RT & S & SL & _). exists ss, lst. split; [exact RT|]. destruct RT as (m & L & EL & NE).
  intros chan Op Tt Kt sfuel Sf names sempred clock mode plain Hm rule start d p ds Es Rs Er Rd O Dk Hi.
  destruct (reading_ahead _ _ _ _ _ _ _ _ S SL EL NE Op) as (Ne & V & A0). specialize (A0 sfuel). assert (A : ahead (lexed toks last) chan sfuel (p_input p) (types_on chan ss)) by (rewrite Hi; exact A0).
  exact (C88_decides_partial a main Hg H1 H2 NS plan switch Hp Hd Ht Hs order alt_order hash dhash share Ho Hc (lexed toks last) chan sfuel _ Ne Sf V names sempred clock mode plain Hm
    rule start d p ds _ Es Rs Er Rd O Dk A Tt Kt).
Qed.
Print Assumptions C99_text_decided_partial.

(** *** An example: the lexer IF : 'i' 'f' ; ID : [a-z]+ ; WS : ' ' -> skip ; (types 1, 2 and 3) with the
    parser s : IF r EOF ; r : | ID ; *)
Import LexMatchProps LexTotalProps GenDemo.
Lemma kw_modes : modes_exist kw_atn.
Proof. split; [discriminate|]. intros x [<-|[]]. exact Logic.I. Qed.
Lemma kw_types : proper_types kw_atn.
Proof.
  split; [intros t [X|[]]; discriminate X|]. intros t I X. cbn in I, X. repeat (destruct I as [<-|I]; [repeat (destruct X as [X|X]; [discriminate X|]); contradiction|]). contradiction.
Qed.
Lemma kw_text_class raw : Forall ordinary_char raw ->
  text_source slice_data raw raw Z.of_nat ->
  text_class slice_data raw raw Z.of_nat unit kw_atn LexerProps.no_action LexerProps.no_sempred (fun l => l) (fun _ => 0) (fun _ => 0) ideal_hash.
Proof.
  intros O TS. split.
  - split; [split; [exact TS|]; split; [exact O|]; split; [apply kw_formed|]; split; [apply kw_apart|]; apply ideal_no_collisions, kw_formed|].
    split; [apply kw_no_empty|]. split; [apply kw_one_action_list|]. split; [apply kw_no_custom|]. split; [apply kw_modes|]. split; [apply kw_types|]. split; intros; reflexivity.
  - split; [exact TS|]. split; [apply kw_formed|]. split; [apply kw_apart|].
    split; [apply kw_settles|]. split; [apply kw_no_empty|]. split; [apply ideal_no_collisions, kw_formed|].
    split; [|intros r i l; reflexivity]. repeat split.
Qed.
Lemma opt_planned : plan_ok opt_atn opt_plan.
Proof. intros from i. unfold opt_plan. destruct (Z.eqb_spec i 8) as [-> |]; [apply plan_sync; [apply reaches_here | constructor] | constructor]. Qed.
Lemma opt_generated : simple_grammar opt_atn 0 /\ one_stop opt_atn /\ one_start opt_atn /\ no_stall opt_atn /\ decisions_ok opt_atn no_switch /\ switches_ok opt_atn 0 no_switch.
Proof. apply generated_dec. vm_compute. reflexivity. Qed.
Lemma opt_eof : reads_eof opt_atn 0.
Proof. apply (reads_eof_dec opt_atn 40). vm_compute. reflexivity. Qed.
(** if x *)
Definition if_x : list Z := [105; 102; 32; 120].
(** ifx, and if x y *)
Definition ifx : list Z := [105; 102; 120].
Definition if_x_y : list Z := [105; 102; 32; 120; 32; 121].
Notation lex_of raw n := (LexerModel.next_tokens slice_data unit kw_atn LexerProps.no_action LexerProps.no_sempred (fun l => l) (fun _ => 0) (fun _ => 0) ideal_hash
  40 n (new_base_lexer unit (stream_new raw) tt) (LexerModel.new_sim kw_atn)).
Notation parse_of toks last := (parse (common_seek (lexed toks last) 0 50) opt_atn demo_names (fun _ _ _ _ => true) plain_order plain_alts one_hash no_dhash no_share
  (fun _ => 0%nat) LL opt_plan no_switch (fun _ => false) 100 0 0 (Bail new_dstrategy) (new_base_parser (TokenStreamModel.with_channel (lexed toks last))) (new_dfas opt_atn)).
Notation verdict_of raw n := (match lex_of raw (Datatypes.S n) with
  | Val (ts, _, _) => match parse_of (firstn n ts) (List.last ts (FactoryModel.Token 0 0 0 0 0 0 0 [] false)) with
                      | Val (_, _, _, Ended) => Some true | Val (_, _, _, Raised (FallThrough (Some _))) => Some false | _ => None end
  | _ => None
  end).
Example C99_nonvacuous :
  text_class slice_data if_x if_x Z.of_nat unit kw_atn LexerProps.no_action LexerProps.no_sempred (fun l => l) (fun _ => 0) (fun _ => 0) ideal_hash /\
  simple_grammar opt_atn 0 /\ one_stop opt_atn /\ one_start opt_atn /\ no_stall opt_atn /\ decisions_ok opt_atn no_switch /\ switches_ok opt_atn 0 no_switch /\
  plan_ok opt_atn opt_plan /\ tests_in_range opt_atn no_switch /\ reads_eof opt_atn 0 /\
  (exists ss lst, reads_text kw_atn if_x ss lst /\ opens_on 0 (ss ++ [lst]) /\ types_on 0 ss = [1; 2] /\ token_types opt_atn (types_on 0 ss) /\ known_types opt_atn (types_on 0 ss)) /\
  (exists n, completes opt_atn n (0, []) [1; 2]) /\
  verdict_of if_x 2 = Some true /\ verdict_of ifx 1 = Some false /\ verdict_of if_x_y 3 = Some false /\
  greedy_or_delimited kw_atn /\
  (* a lexer with non-greedy comments *)
  text_class slice_data LazyProps.cm_text LazyProps.cm_text Z.of_nat unit LazyProps.cm_atn LexerProps.no_action LexerProps.no_sempred (fun l => l) (fun _ => 0) (fun _ => 0) ideal_hash /\
  greedy_or_delimited LazyProps.cm_atn /\ ~ greedy LazyProps.cm_atn.
Proof.
  assert (TC : text_class slice_data if_x if_x Z.of_nat unit kw_atn LexerProps.no_action LexerProps.no_sempred (fun l => l) (fun _ => 0) (fun _ => 0) ideal_hash).
  { apply kw_text_class; [repeat constructor | constructor; repeat constructor; discriminate]. }
  destruct opt_generated as (G1 & G2 & G3 & G4 & G5 & G6).
  split; [exact TC|]. do 6 (split; [assumption|]). split; [apply opt_planned|]. split; [intros i s f x j _ X; discriminate X|]. split; [apply opt_eof|].
  split; [|split; [exists 1%nat|]].
  3: { do 3 (split; [vm_compute; reflexivity|]). split; [apply LazyLexProps.greedy_or, kw_greedy|]. destruct LazyLexProps.C106_nonvacuous as (N1 & N2 & N3 & _).
       split; [split; assumption|]. split; [exact N3|]. intros X. specialize (X 9 _ eq_refl). discriminate X. }
  - destruct (lex_of if_x 3%nat) as [[[ts l] s]| |] eqn:E; [|vm_compute in E; discriminate ..].
    assert (X : cache_fits s /\ exists t1 t2 t3, ts = [t1; t2] ++ [t3] /\ map FactoryModel.token_type ts = [1; 2; -1] /\ map FactoryModel.channel ts = [0; 0; 0]).
    { vm_compute in E. injection E as <- <- <-. split; [intros d [<-|[]]; vm_compute; reflexivity|]. do 3 eexists. split; [reflexivity | split; reflexivity]. }
    destruct X as (F & t1 & t2 & t3 & -> & X1 & X2). cbn [map app] in X1, X2. injection X1 as T1 T2 T3. injection X2 as C1 C2 C3.
    destruct (reading_of _ _ _ _ _ _ _ _ _ _ _ _ _ _ _ [t1; t2] t3 _ _ (proj1 TC) (warmed_new _ _ _ _ _ _ _ _) F E T3) as (ss & lst & RT & S & _).
    { repeat constructor; congruence. }
    assert (Ty : types_on 0 ss = [1; 2] /\ opens_on 0 (ss ++ [lst])).
    { rewrite <- types_made. unfold opens_on. rewrite filter_app. inversion S as [|? y1 ? ? (ty1 & c1 & Q1 & Q2 & Q3 & _) S' Ey]; subst. inversion S' as [|? y2 ? ? (ty2 & c2 & R1 & R2 & R3 & _) S'' Ey']; subst. inversion S''; subst.
      unfold types_on. cbn [flat_map app]. rewrite Q1, R1, T1, T2, C1, C2. cbn. eauto. }
    destruct Ty as [Ty Op]. exists ss, lst. split; [exact RT|]. split; [exact Op|]. rewrite Ty. split; [reflexivity|]. split; [|repeat constructor; discriminate].
    split; [repeat constructor; discriminate|]. intros (i & s0 & g & Es & I). pose proof (opt_thin i s0 _ Es I) as [].
  - eexists _, _. split; [apply (path_run opt_atn [0; 0; 0; 0; 1; 0; 0; 0; 0; 0]%nat); vm_compute; reflexivity | split; reflexivity].
Qed.
