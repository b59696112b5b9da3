(** Properties of lexing: C37. *)
From Coq Require Import ZArith List Bool Lia.
From Coq Require Import ZifyBool ZifyNat.
From Verif Require Import Outcome CharStreamModel CharStreamSpec PredContextModel SemContextModel
  ConfigSetModel DfaModel AtnModel AtnSpec Ll1Spec LexerModel LexerSpec LexerProofs LexMatchSpec
  LexMatchProofs LexCacheProofs LexTextProofs LexTotalProofs.
From Verif Require LexerProps LexMatchProps FactoryModel.
Import ListNotations.
Local Open Scope Z_scope.

(** ** C37 *)
(** The lexers considered: no rule matches the empty text and no infinite sequence of steps consumes
    nothing; embedded code does not move in the input and installs no tokens.  Greedy or not, any
    text, any cache left by earlier matches. *)
Definition progressing D raw cs pos U a action sempred before_emit ctx_hash actions_hash configs_hash : Prop :=
  text_source D raw cs pos /\ lexer_formed a /\ rules_apart a /\ settles a /\ no_empty_match a /\
  no_collisions D U a sempred ctx_hash actions_hash configs_hash /\
  place_keeping action sempred before_emit /\ no_own_tokens action.

(** Any number of calls of next_token ends (without panic), and after at most as many tokens as the
    input has characters (but at least one) all tokens are end-of-input tokens.  If no rule or action
    gives the end-of-input type, then after the first token of that type all others have it. *)
Theorem C37_ends_with_eof : forall D raw cs pos U a action sempred before_emit ctx_hash actions_hash configs_hash s u n,
  progressing D raw cs pos U a action sempred before_emit ctx_hash actions_hash configs_hash ->
  warmed D U a action sempred ctx_hash actions_hash configs_hash s ->
  exists ts l' s', length ts = n /\
    (exists enough, forall fuel, (enough <= fuel)%nat ->
       next_tokens D U a action sempred before_emit ctx_hash actions_hash configs_hash fuel n (new_base_lexer U (stream_new raw) u) s = Val (ts, l', s')) /\
    (forall i t, nth_error ts i = Some t -> (1 <= i)%nat -> (length cs <= i)%nat -> FactoryModel.token_type t = -1) /\
    (eof_reserved a action before_emit -> forall i j t t', (i <= j)%nat -> nth_error ts i = Some t -> nth_error ts j = Some t' ->
       FactoryModel.token_type t = -1 -> FactoryModel.token_type t' = -1).
Proof.
  intros D raw cs pos U a action sempred before_emit ch ah sh s u n (TS & FM & RA & SE & NE & NC & KE & NT) W.
  assert (A : at_char U raw cs pos 0 (new_base_lexer U (stream_new raw) u)) by apply (between_start D U raw cs pos TS u).
  destruct (calls_total D U a action sempred before_emit ch ah sh FM RA NC SE NE KE NT raw cs pos TS n 0 _ s A) as (ts & l' & s' & L & _ & E & F & R).
  - eapply warmed_good; eauto.
  - exists ts, l', s'. split; [exact L|]. split; [exact R|]. split; [|exact F]. intros i t Ht L1 L2. eapply E; eauto.
Qed.
Print Assumptions C37_ends_with_eof.


(** *** Example: the keyword grammar of C33-C35.  The rank of a position bounds the number of steps
    that consume nothing. *)
Import LexMatchProps.
Definition kw_rank (i : Z) : nat := nth (Z.to_nat i) [7; 1; 0; 4; 0; 1; 0; 1; 4; 0; 0; 1; 2; 3; 0; 1; 0; 5]%nat 0%nat.
Lemma kw_ranked i st ys r : kw_pos (i, st) -> quiet_step kw_atn (i, st) ys r -> (kw_rank (fst r) < kw_rank i)%nat.
Proof.
  intros K S. cbn [fst snd] in K.
  inversion S as [i0 st0 s g n E N I|i0 st0 s g f rr p E N I|i0 f st0 s E N|i0 s g d rr k p x E N I X|i0 f st0 s g d rr k p E N I]; subst; clear S;
  each_state E; try (exfalso; apply N; reflexivity); try discriminate N;
  try (cbn in I; repeat (destruct I as [I|I]; [first [discriminate I | injection I; intros; subst; clear I]|]); try contradiction).
  all: try (vm_compute; lia).
  all: destruct K as [K|(K & J)]; cbn [fst snd] in K; [discriminate K|]; injection K as -> ->.
  all: try (vm_compute; lia).
  all: cbn in J; repeat (destruct J as [J|J]; [discriminate J|]); contradiction.
Qed.
Lemma kw_settles : settles kw_atn.
Proof.
  assert (G : forall n p, kw_pos p -> (kw_rank (fst p) < n)%nat -> Acc (fun q p => exists xs, quiet_step kw_atn p xs q) p).
  { induction n as [|n IH]; intros [i st] K L; [lia|]. constructor. intros r (xs & S). apply IH.
    - eapply kw_quiet; eauto.
    - assert (H := kw_ranked _ _ _ _ K S). cbn [fst] in L. lia. }
  intros i _. apply (G (Datatypes.S (kw_rank i))); [left; reflexivity | cbn [fst]; lia].
Qed.
Definition kw_fresh : list position := [(1, []); (9, []); (3, []); (12, []); (7, [13]); (16, [13]); (5, []); (14, [])].
Lemma kw_fresh_quiet p ys r : In p kw_fresh -> quiet_step kw_atn p ys r -> In r kw_fresh.
Proof.
  intros K S. cbn in K. repeat (destruct K as [<-|K]; [|]); [.. | contradiction];
  (inversion S as [i0 st0 s g n E N I|i0 st0 s g f rr p E N I|i0 f st0 s E N|i0 s g d rr k p x E N I X|i0 f st0 s g d rr k p E N I]; subst; clear S;
  injection E as <-; try discriminate N; cbn in I;
  repeat (destruct I as [I|I]; [first [discriminate I | injection I; intros; subst; clear I; cbn; tauto]|]); contradiction).
Qed.
Lemma kw_no_empty : no_empty_match kw_atn.
Proof.
  intros m k (xs & q & i & s & B & R & E & St).
  assert (Q : q = 1 \/ q = 3 \/ q = 5).
  { destruct B as (ms & s' & t & Em & Es & Et & ->). assert (ms = 0).
    { unfold item in Em. destruct (m <? 0); [discriminate|]. apply nth_error_In in Em. destruct Em as [<-|[]]. reflexivity. }
    subst ms. inversion Es; subst s'. do 3 (destruct k as [|k]; [cbn in Et; inversion Et; subst; cbn; auto|]). destruct k; discriminate. }
  assert (K : forall w p, run kw_atn (q, []) w xs p -> w = [] -> In p kw_fresh).
  { clear - Q. intros w p R. induction R as [|w xs p ys r R IH S|w xs p c r R IH S]; intros Ew.
    - destruct Q as [->|[->| ->]]; cbn; tauto.
    - eapply kw_fresh_quiet; [exact (IH Ew) | exact S].
    - destruct w; discriminate. }
  specialize (K _ _ R eq_refl). cbn in K.
  repeat (destruct K as [K|K]; [first [discriminate K | injection K as <-; injection E as <-; discriminate St]|]). contradiction.
Qed.
Notation kw_tokens fuel n s :=
  (next_tokens slice_data unit kw_atn LexerProps.no_action LexerProps.no_sempred (fun l => l) (fun _ => 0) (fun _ => 0) ideal_hash
     fuel n (new_base_lexer unit (stream_new kw_text) tt) s).
(** the tokens of [if ifx#]: a keyword, an identifier (the blank is skipped, the number sign, which is
    no token, is reported and dropped), then end of input *)
Example C37_nonvacuous :
  progressing slice_data kw_text kw_text Z.of_nat unit kw_atn LexerProps.no_action LexerProps.no_sempred (fun l => l) (fun _ => 0) (fun _ => 0) ideal_hash /\
  warmed slice_data unit kw_atn LexerProps.no_action LexerProps.no_sempred (fun _ => 0) (fun _ => 0) ideal_hash (new_sim kw_atn) /\
  eof_reserved kw_atn (LexerProps.no_action : Z -> Z -> lexer unit -> lexer unit) (fun l => l) /\
  match kw_tokens 40%nat 5%nat (new_sim kw_atn) with
  | Val (ts, _, _) => map FactoryModel.token_type ts = [1; 2; -1; -1; -1]
  | _ => False
  end.
Proof.
  split; [|split; [constructor|split]].
  - split; [constructor; repeat constructor; discriminate|]. split; [apply kw_formed|]. split; [apply kw_apart|].
    split; [apply kw_settles|]. split; [apply kw_no_empty|]. split; [apply ideal_no_collisions, kw_formed|].
    split; [|intros r i l; reflexivity]. repeat split.
  - split; [cbn; intros ty K; repeat (destruct K as [<-|K]; [discriminate|]); contradiction|].
    split; [intros x [<-|[]]; reflexivity|]. split; auto.
  - vm_compute. reflexivity.
Qed.

(** *** The condition that no rule matches the empty text is needed.  A : 'a'? ;  On the text b the
    lexer gives empty A tokens forever and never gets to the end of the input. *)
Definition opt_atn : atn := Atn [0] LEXER [] 1 [0] [1] [2] [1]
  [ st 0 0 (DecisionState 0 false TokenStartState) [Epsilon 1 (-1)];
    st 0 1 (RuleStartState 2 false) [Epsilon 3 (-1)];
    st 0 2 RuleStopState [];
    st 0 3 (DecisionState 1 false (BlockStartState 5 BasicBlockStart)) [Epsilon 4 (-1); Epsilon 5 (-1)];
    st 0 4 BasicState [Atom 5 97];
    st 0 5 BasicState [Epsilon 2 (-1)] ].
Notation opt_next lx sm :=
  (next_token slice_data unit opt_atn LexerProps.no_action LexerProps.no_sempred (fun l => l) (fun _ => 0) (fun _ => 0) ideal_hash 40 lx sm).
Definition opt_lexer (log : list matched) : lexer unit := Lexer unit (IStream [98] 0) 1 0 0 1 0 1 None false 0 [] 0 None tt [] log.
Definition opt_sim : sim :=
  match opt_next (new_base_lexer unit (stream_new [98]) tt) (new_sim opt_atn) with Val (_, _, s) => s | _ => new_sim opt_atn end.
Definition opt_token : FactoryModel.token := FactoryModel.Token 1 0 0 (-1) (-1) 1 0 [] false.
Lemma opt_first : opt_next (new_base_lexer unit (stream_new [98]) tt) (new_sim opt_atn) =
  Val (opt_token, opt_lexer [Matched 0 0 1 false], opt_sim).
Proof. vm_compute. reflexivity. Qed.
Lemma opt_again log : opt_next (opt_lexer log) opt_sim = Val (opt_token, opt_lexer (log ++ [Matched 0 0 1 false]), opt_sim).
Proof. vm_compute. reflexivity. Qed.

Lemma next_tokens_succ D U a action sempred before_emit ch ah sh fuel n l s :
  next_tokens D U a action sempred before_emit ch ah sh fuel (S n) l s =
  obindo (next_token D U a action sempred before_emit ch ah sh fuel l s) (fun '(t, l, s) =>
  obindo (next_tokens D U a action sempred before_emit ch ah sh fuel n l s) (fun '(ts, l, s) => Val (t :: ts, l, s))).
Proof. reflexivity. Qed.

Theorem C37_empty_match_refuted : forall n, exists l' s',
  next_tokens slice_data unit opt_atn LexerProps.no_action LexerProps.no_sempred (fun l => l) (fun _ => 0) (fun _ => 0) ideal_hash
     40 n (new_base_lexer unit (stream_new [98]) tt) (new_sim opt_atn) = Val (repeat opt_token n, l', s').
Proof.
  assert (G : forall n log, exists l' s',
    next_tokens slice_data unit opt_atn LexerProps.no_action LexerProps.no_sempred (fun l => l) (fun _ => 0) (fun _ => 0) ideal_hash
     40 n (opt_lexer log) opt_sim = Val (repeat opt_token n, l', s')).
  { induction n as [|n IH]; intros log; [eexists _, _; reflexivity|].
    destruct (IH (log ++ [Matched 0 0 1 false])) as (l' & s' & E). exists l', s'. rewrite next_tokens_succ, opt_again. cbn [obindo].
    rewrite E. reflexivity. }
  intros [|n]; [eexists _, _; reflexivity|]. 
  destruct (G n [Matched 0 0 1 false]) as (l' & s' & E). exists l', s'. rewrite next_tokens_succ, opt_first. cbn [obindo]. rewrite E. reflexivity.
Qed.
Print Assumptions C37_empty_match_refuted.
