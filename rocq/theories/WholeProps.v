(** C97: from the text to the tree.  The lexer and the parser put together: every character
    of the input is found again, in its place, in a leaf of the parse tree, in a token on
    another channel, in skipped text, or in text that was dropped and reported. *)
From Coq Require Import ZArith List Bool Lia.
From Coq Require Import ZifyBool ZifyNat.
From Verif Require Import CharStreamModel TokenStreamModel TokenStreamSpec TokenStreamProofs CommonTokenStreamProofs LexerModel LexerSpec LexerProofs.
From Verif Require LexerProps FactoryModel.
From Verif Require Import Outcome IntervalSetModel PredContextModel SemContextModel ConfigSetModel DfaModel AtnModel AtnSpec Ll1Model Ll1Spec ParserModel ParserSpec ParserTreeProofs ParserRunProofs ParserStreamProofs ParserProps.
From Verif Require Import PredictModel PredictSpec PredictLLSpec PredictTotalSpec GenModel GenSpec GenBaseProofs.
From Verif Require Import RecModel RecSpec RecCallsProofs RecSoundProofs RecTreeProofs RecProps.
From Verif Require Import SpanSpec SpanProofs SpanStreamProofs WholeSpec WholeProofs ParserDemo.
Import ListNotations.
Local Open Scope Z_scope.

Lemma lexed_eof toks last : whole_lexing toks last -> eof_number (lexed toks last) (length toks).
Proof.
  intros [F E]. split.
  - unfold is_eof, lexed. rewrite nth_overflow by lia. exact E.
  - intros i Hi. unfold is_eof, lexed. rewrite Forall_forall in F. destruct (F (nth i toks last)) as [Q _]; [apply nth_In; lia|]. exact Q.
Qed.
(** the leaves read are the tokens before the cursor, which has not gone beyond the end *)
Lemma leaves_read : forall src ch bound e a names fuel c g p f g' p' f' r,
  eof_number src e -> (e <= bound)%nat -> rule_call c -> ctx_exists p -> p_build p = true -> p_input p = TokenStreamModel.with_channel src ->
  run_call (common_stream src ch bound) a names fuel c g p f = Val (g', p', f', r) -> ~ cancelled r ->
  (Z.to_nat (cur (p_input p')) <= e)%nat /\
  exists n T, attached (ParserSpec.rule_of c) n p p' /\ shows (p_heap p') (KRule n) T /\
    read_leaves T = tokens_before src ch (Z.to_nat (cur (p_input p'))).
Proof.
  intros src ch bound e a names fuel c g p f g' p' f' r He Hf HG W Hb Hp H NC.
  destruct (start_reading src ch) as [R0 R1]. pose proof (ParserStreamProofs.common_history src ch bound e He Hf) as Hist.
  assert (exists n T, returned (reading src ch) (read_so_far src ch) (ParserSpec.rule_of c) (body_of c) p p' n T) as (n & T & R).
  { destruct c; cbn [rule_call] in HG; try contradiction.
    - destruct (rule_returned _ a names fuel _ _ Hist _ _ _ _ _ _ _ _ _ _ _ (all_bodies_ok _ a names fuel _ _ Hist body) HG W H (not_cancelled _ NC)) as (_ & _ & _ & R). exact R.
    - destruct (rec_returned _ a names fuel _ _ Hist _ _ _ _ _ _ _ _ _ _ _ _ (all_bodies_ok _ a names fuel _ _ Hist body) HG W H (not_cancelled _ NC)) as (_ & _ & R). exact R. }
  pose proof (returned_attached _ _ _ _ _ _ _ _ _ R) as AT. destruct R as [Q1 Q2 Q3 Q4 Q5 Q6 Q7 Q8 Q9].
  destruct (Q9 Hb) as (D & M & C). rewrite <- Hp in R0. destruct (C R0) as (I' & taken & extra & new & E1 & E2 & E3 & E4). cbn [app] in E2. subst new.
  destruct (reading_at src ch bound e He Hf _ I') as (n' & c' & C' & Hc & Hs & Hz & N & L). rewrite Hz.
  split; [exact L|]. exists n, T. split; [exact AT|]. split; [eauto using denotes_shows|].
  rewrite Hp, R1 in E1. cbn [app] in E1. unfold read_so_far in E1. rewrite Hz in E1. rewrite E1. unfold read_leaves.
  eapply merged_filter; [exact E3| |eapply Forall_impl; [|exact E4]; intros; now apply not_consumed_unread].
  rewrite <- E1. apply Forall_forall. intros x Hx. apply (before_in src ch bound e Hf) in Hx as (j & Hj & ->). specialize (N j Hj). unfold is_eof in N.
  unfold was_read, tok_at, set_index. cbn [t_type t_index]. change TokenStreamModel.TOKEN_EOF with (-1) in N. lia.
Qed.

(** Any grammars, embedded code of the lexer that keeps out of its bookkeeping, any text
    (code points or UTF-8): the parser, reading the tokens of the lexer on the channel
    [chan], makes any rule call, with any errors on the way.  The input before the token at
    which it then stands is accounted for. *)
Theorem C97_text_to_tree : forall D raw cs pos U lexer_atn action sempred before_emit ch ah sh lfuel n u s toks last l' s',
  text_source D raw cs pos -> place_keeping action sempred before_emit -> no_own_tokens action -> no_own_text action sempred before_emit ->
  LexerModel.next_tokens D U lexer_atn action sempred before_emit ch ah sh lfuel n (new_base_lexer U (stream_new raw) u) s = Val (toks ++ [last], l', s') ->
  whole_lexing toks last ->
  forall chan bound a names fuel c g p f g' p' f' r, (length toks <= bound)%nat ->
  rule_call c -> ctx_exists p -> p_build p = true -> p_input p = TokenStreamModel.with_channel (lexed toks last) ->
  run_call (common_stream (lexed toks last) chan bound) a names fuel c g p f = Val (g', p', f', r) -> ~ cancelled r ->
  exists m T parts, attached (ParserSpec.rule_of c) m p p' /\ shows (p_heap p') (KRule m) T /\
    accounted raw (Z.to_nat (FactoryModel.start (nth (Z.to_nat (cur (p_input p'))) toks last))) chan (lx_errors U l') T parts.
Proof.
  intros D raw cs pos U la action sempred before_emit ch ah sh lfuel n u s toks last l' s' TS K N NT HL WL chan bound a names fuel c g p f g' p' f' r Hb HG W HB Hp H NC.
  destruct (leaves_read _ _ _ _ _ _ _ _ _ _ _ _ _ _ _ (lexed_eof _ _ WL) Hb HG W HB Hp H NC) as (Le & m & T & A & Sh & RL).
  destruct (before_cursor _ _ _ _ _ _ _ _ _ _ _ _ _ _ _ _ _ _ _ _ TS K N NT HL (proj1 WL) chan _ Le) as (parts & P1 & P2 & P3 & P4).
  exists m, T, parts. split; [exact A|]. split; [exact Sh|]. split; [exact P1|]. split; [congruence|]. split; [exact P3|exact P4].
Qed.
Print Assumptions C97_text_to_tree.

(** If the parser gets to the end of the input, all of it is accounted for. *)
Theorem C97_whole_text : forall D raw cs pos U lexer_atn action sempred before_emit ch ah sh lfuel n u s toks last l' s',
  text_source D raw cs pos -> place_keeping action sempred before_emit -> no_own_tokens action -> no_own_text action sempred before_emit ->
  LexerModel.next_tokens D U lexer_atn action sempred before_emit ch ah sh lfuel n (new_base_lexer U (stream_new raw) u) s = Val (toks ++ [last], l', s') ->
  whole_lexing toks last -> FactoryModel.start last = zlen raw ->
  forall chan bound a names fuel c g p f g' p' f' r, (length toks <= bound)%nat ->
  rule_call c -> ctx_exists p -> p_build p = true -> p_input p = TokenStreamModel.with_channel (lexed toks last) ->
  run_call (common_stream (lexed toks last) chan bound) a names fuel c g p f = Val (g', p', f', r) -> ~ cancelled r ->
  cur (p_input p') = Z.of_nat (length toks) ->
  exists m T parts, attached (ParserSpec.rule_of c) m p p' /\ shows (p_heap p') (KRule m) T /\
    accounted raw (length raw) chan (lx_errors U l') T parts /\ concat (map part_text parts) = raw.
Proof.
  intros D raw cs pos U la action sempred before_emit ch ah sh lfuel n u s toks last l' s' TS K N NT HL WL SL chan bound a names fuel c g p f g' p' f' r Hb HG W HB Hp H NC HE.
  destruct (C97_text_to_tree _ _ _ _ _ _ _ _ _ _ _ _ _ _ _ _ _ _ _ _ TS K N NT HL WL chan bound a names fuel c g p f g' p' f' r Hb HG W HB Hp H NC) as (m & T & parts & A & B & C).
  rewrite HE, Nat2Z.id, nth_overflow, SL in C by lia. unfold zlen in C. rewrite Nat2Z.id in C.
  exists m, T, parts. split; [exact A|]. split; [exact B|]. split; [exact C|]. destruct C as [C _]. now rewrite firstn_all in C.
Qed.
Print Assumptions C97_whole_text.

(** The same of generated parsers, for any grammar, predicates, decisions and DFAs. *)
Theorem C97_generated : forall D raw cs pos U lexer_atn action sempred before_emit ch ah sh lfuel k u s toks last l' s',
  text_source D raw cs pos -> place_keeping action sempred before_emit -> no_own_tokens action -> no_own_text action sempred before_emit ->
  LexerModel.next_tokens D U lexer_atn action sempred before_emit ch ah sh lfuel k (new_base_lexer U (stream_new raw) u) s = Val (toks ++ [last], l', s') ->
  whole_lexing toks last ->
  forall a plan recursive, well_formed a -> named_rules a -> plan_fits a plan recursive ->
  forall chan sfuel names psempred order alt_order hash dhash share clock mode switch plain pred pred_text pred_message fuel n rule start g p ds g' p' ds' r,
  (length toks <= sfuel)%nat ->
  Ll1Spec.rule_of a start = rule -> p_input p = TokenStreamModel.with_channel (lexed toks last) -> ctx_exists p -> p_build p = true ->
  RecModel.parse (common_seek (lexed toks last) chan sfuel) a names psempred order alt_order hash dhash share clock mode plan switch plain recursive pred pred_text pred_message fuel n rule start g p ds = Val (g', p', ds', r) ->
  r <> Full -> (forall c, r <> Raised (FallThrough c)) ->
  exists m T parts, attached rule m p p' /\ shows (p_heap p') (KRule m) T /\
    accounted raw (Z.to_nat (FactoryModel.start (nth (Z.to_nat (cur (p_input p'))) toks last))) chan (lx_errors U l') T parts.
Proof.
  intros D raw cs pos U la action sempred before_emit ch ah sh lfuel k u s toks last l' s' TS K N NT HL WL a plan recursive WF NR PF
    chan sfuel names psempred order alt_order hash dhash share clock mode switch plain pred pred_text pred_message fuel n rule start g p ds g' p' ds' r Hb RS Hp W HB H NF NC.
  pose proof (lexed_eof _ _ WL) as He.
  assert (A : RecSpec.at_token (lexed toks last) chan sfuel (p_input p)).
  { rewrite Hp. split; [exists []; reflexivity|]. exists O. split; [reflexivity | left; reflexivity]. }
  destruct (C93_history _ chan sfuel _ He Hb a names psempred order alt_order hash dhash share clock mode plan switch plain recursive pred pred_text pred_message fuel n rule start g p ds g' p' ds' r A H NF)
    as (b & body & AL & RC).
  pose proof (along_rule_call a plan plain recursive WF PF NR rule start 0 b body AL RS) as GB.
  assert (NC' : ~ cancelled (match r with Raised x => Some x | _ => None end)).
  { intros (c & E). destruct r; try discriminate. injection E as ->. exact (NC c eq_refl). }
  destruct (C97_text_to_tree _ _ _ _ _ _ _ _ _ _ _ _ _ _ _ _ _ _ _ _ TS K N NT HL WL chan sfuel a names fuel _ g p _ g' p' _ _ Hb GB W HB Hp (RC (Frame 0 None (-1) 0 0)) NC')
    as (m & T & parts & Q1 & Q2).
  exists m, T, parts. split; [|auto]. replace rule with (ParserSpec.rule_of (calls_rule plain recursive rule start 0 body)) by (unfold calls_rule; destruct (recursive rule); reflexivity). exact Q1.
Qed.
Print Assumptions C97_generated.

(** The lexer of LexerProps.v (words; newlines are skipped; 1 matches no rule) on the text
    a NEWLINE bc1d, and a parser for three words and the end of input: all hypotheses are
    met, and this is what becomes of the text. *)
Notation words := [97; 10; 98; 99; 49; 100].
Definition three_words : call := CRule 0 0 false [CAlt None; CMatch 1; CMatch 1; CMatch 1; CMatch (-1)].
Notation word ty text start stop line column := (FactoryModel.Token ty 0 start stop (-1) line column text false).
Notation word_tokens := [word 1 [97] 0 0 1 0; word 1 [98; 99] 2 3 2 0; word 1 [100] 5 5 2 3].
Notation word_end := (word (-1) [] 6 5 2 4).
Notation word_source := (lexed word_tokens word_end).
Notation word_parser := (new_base_parser (TokenStreamModel.with_channel word_source)).
Example C97_nonvacuous :
  text_source slice_data words words Z.of_nat /\
  place_keeping LexerProps.no_action LexerProps.no_sempred LexerProps.no_hook /\ no_own_tokens LexerProps.no_action /\
  no_own_text LexerProps.no_action LexerProps.no_sempred LexerProps.no_hook /\ whole_lexing word_tokens word_end /\ rule_call three_words /\
  (exists l s, LexerProps.demo_run slice_data words LexerProps.no_action 4 = Val (word_tokens ++ [word_end], l, s) /\ lx_errors unit l = [(2, 2, [49])]) /\
  (exists g p f, run_call (common_stream word_source 0 50) demo_atn demo_names 50 three_words (Default new_dstrategy) word_parser (Frame 0 None (-1) 0 0) = Val (g, p, f, None) /\
    cur (p_input p) = 3 /\
    let w i text line column := Tok 1 0 text i line column in
    accounted words 6 0 [(2, 2, [49])] (Node 0 0 [Leaf (w 0 [97] 1 0); Leaf (w 1 [98; 99] 2 0); Leaf (w 2 [100] 2 3); Leaf (Tok (-1) 0 [] 3 2 4)])
      [InLeaf (w 0 [97] 1 0); SkippedText [10]; InLeaf (w 1 [98; 99] 2 0); DroppedText [49]; InLeaf (w 2 [100] 2 3)]).
Proof.
  split. { constructor. repeat constructor; lia. }
  split. { split; [|split]; intros; repeat split; destruct l; reflexivity. }
  split. { intros r i l. reflexivity. }
  split. { repeat split. }
  split. { split; [|reflexivity]. repeat constructor; cbn; lia. }
  split. { unfold rule_call, generated_body, three_words. repeat constructor. }
  split. { do 2 eexists. split; vm_compute; reflexivity. }
  do 3 eexists. split; [vm_compute; reflexivity|]. split; [reflexivity|]. cbv zeta. split; [reflexivity|]. split; [reflexivity|]. split.
  - intros t H. cbn [In] in H. repeat (destruct H as [H|H]; [discriminate|]). destruct H.
  - exists []. reflexivity.
Qed.
