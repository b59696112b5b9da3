(** Properties of lexing: C98. *)
From Coq Require Import ZArith List Bool Lia.
From Coq Require Import ZifyBool ZifyNat.
From Verif Require Import Outcome CharStreamModel CharStreamSpec PredContextModel SemContextModel
  ConfigSetModel DfaModel AtnModel AtnSpec Ll1Spec LexerModel LexerSpec LexerProofs LexMatchSpec
  LexMatchProofs LexCacheProofs LexTextProofs LexMatchProps LexTotalProps MunchSpec MunchProofs.
From Verif Require LexerProps FactoryModel.
Import ListNotations.
Local Open Scope Z_scope.

(** The lexers considered: those of C33 to C35 whose rules match no empty text and always pass the
    same commands, all of them built in; modes that are named exist, and no type is one of the
    numbers that stand for more, skip or no type.  Embedded code does not move in the input, and the
    hook that runs before a token is emitted does nothing. *)
Definition reference_class D raw cs pos U a (action : Z -> Z -> lexer U -> lexer U) sempred (before_emit : lexer U -> lexer U) ctx_hash actions_hash configs_hash : Prop :=
  lexer_class D raw cs pos U a sempred ctx_hash actions_hash configs_hash /\
  no_empty_match a /\ one_action_list a /\ no_custom_actions a /\ modes_exist a /\ proper_types a /\
  (forall r i l, lx_input U (action r i l) = lx_input U l) /\ (forall l, before_emit l = l).

Lemma munch_picked D U a action sempred ctx_hash actions_hash configs_hash raw cs pos : text_source D raw cs pos -> Forall ordinary_char cs ->
  lexer_formed a -> rules_apart a -> greedy a -> no_collisions D U a sempred ctx_hash actions_hash configs_hash ->
  forall k l mode fuel s r l' s', lx_input U l = IStream raw (pos k) -> (k <= length cs)%nat -> sim_good D U a sempred ctx_hash actions_hash configs_hash s ->
    item (mode_to_start_state a) mode <> None ->
    match_token D U a action sempred ctx_hash actions_hash configs_hash fuel mode l s = Val (r, l', s') -> cache_fits s' ->
    picked D U a action cs (maximal_munch a) k l mode r l'.
Proof.
  intros TS OC FM RA GR NC k l mode fuel s r l' s' Hi Lk G Mo E F.
  destruct (match_text D U a sempred ctx_hash actions_hash configs_hash FM RA NC raw cs pos TS k l Hi Lk mode GR OC action fuel s r l' s' G Mo E F)
    as [(n & kk & xs & w & ex & ln & ty & B1 & B2 & B)|B]; [left|right; exact B].
  exists n, kk, xs, w, ex, ln, ty. split; [split; assumption | exact B].
Qed.

(** ** C98 *)
(** The first [n] tokens are those the reference gives for the text: the types, channels, places and
    texts, with one report for each stretch that matches nothing. *)
Theorem C98_tokens : forall D raw cs pos U a action sempred before_emit ctx_hash actions_hash configs_hash s u fuel n ts l' s',
  reference_class D raw cs pos U a action sempred before_emit ctx_hash actions_hash configs_hash ->
  warmed D U a action sempred ctx_hash actions_hash configs_hash s -> cache_fits s' ->
  LexerModel.next_tokens D U a action sempred before_emit ctx_hash actions_hash configs_hash fuel n (new_base_lexer U (stream_new raw) u) s = Val (ts, l', s') ->
  exists ss, lexes_to a cs n ss /\ Forall2 (shows raw cs pos) ts (filter made ss) /\ Forall2 (reports raw cs pos) (lx_errors U l') (filter reported ss).
Proof.
  intros D raw cs pos U a action sempred be ch ah sh s u fuel n ts l' s' ((TS & OC & FM & RA & GR & NC) & NE & One & NCA & ME & PT & Ka & Be) W F E.
  assert (G : sim_good D U a sempred ch ah sh s) by (eapply warmed_good; eauto).
  destruct (tokens_scan D U a action sempred be ch ah sh raw cs pos TS OC FM RA NC NE One NCA ME PT Ka Be (maximal_munch a)
     (munch_matches a) (munch_picked D U a action sempred ch ah sh raw cs pos TS OC FM RA GR NC) _ _ _ _ _ _ _ _ _ _ _
     (resting_start D U a raw cs pos TS ME u) G F E) as (ss & new & P & S & Er & R).
  cbn [app] in Er. rewrite <- Er in R. eauto.
Qed.
Print Assumptions C98_tokens.

(** The reference gives one answer. *)
Theorem C98_unique : forall a cs n ss ss', one_action_list a -> lexes_to a cs n ss -> lexes_to a cs n ss' -> ss = ss'.
Proof. intros a cs n ss ss' One P P'. eapply munch_unique; eauto. Qed.
Print Assumptions C98_unique.

(** If, besides, no infinite sequence of steps consumes nothing, the tokens are there for every [n],
    with every number of steps that is large enough: whatever the reference gives, the lexer gives. *)
Theorem C98_all_tokens : forall D raw cs pos U a action sempred before_emit ctx_hash actions_hash configs_hash s u n,
  reference_class D raw cs pos U a action sempred before_emit ctx_hash actions_hash configs_hash ->
  progressing D raw cs pos U a action sempred before_emit ctx_hash actions_hash configs_hash ->
  warmed D U a action sempred ctx_hash actions_hash configs_hash s ->
  exists ts l' s', length ts = n /\
    (exists enough, forall fuel, (enough <= fuel)%nat ->
       LexerModel.next_tokens D U a action sempred before_emit ctx_hash actions_hash configs_hash fuel n (new_base_lexer U (stream_new raw) u) s = Val (ts, l', s')) /\
    (cache_fits s' -> (exists ss, lexes_to a cs n ss) /\
       forall ss, lexes_to a cs n ss -> Forall2 (shows raw cs pos) ts (filter made ss) /\ Forall2 (reports raw cs pos) (lx_errors U l') (filter reported ss)).
Proof.
  intros D raw cs pos U a action sempred be ch ah sh s u n RC P W.
  destruct (C37_ends_with_eof D raw cs pos U a action sempred be ch ah sh s u n P W) as (ts & l' & s' & Ln & (enough & E) & _).
  exists ts, l', s'. split; [exact Ln|]. split; [exists enough; exact E|]. intros F.
  destruct (C98_tokens _ _ _ _ _ _ _ _ _ _ _ _ _ _ _ _ _ _ _ RC W F (E enough (le_n _))) as (ss & L & S & R).
  split; [eauto|]. intros ss' L'. rewrite (C98_unique _ _ _ _ _ (proj1 (proj2 (proj2 RC))) L' L). auto.
Qed.
Print Assumptions C98_all_tokens.

(** ** A grammar with modes for the example:
    OPEN : QUOTE -> more, pushMode(STRING) ; WS : ' ' -> channel(1) ; ID : [a-z]+ ;
    mode STRING; CHAR : [a-z] -> more ; CLOSE : QUOTE -> type(6), popMode ;
    where QUOTE stands for the character number 34 *)
Definition str_atn : atn := Atn [0; 1] LEXER [LexerMoreAction; LexerPushModeAction 1; LexerChannelAction 1; LexerTypeAction 6; LexerPopModeAction] 6
  [0; 1] [2; 4; 6; 8; 10] [3; 5; 7; 9; 11] [1; 2; 3; 4; 5]
  [ st 0 0 (DecisionState 0 false TokenStartState) [Epsilon 2 (-1); Epsilon 4 (-1); Epsilon 6 (-1)];
    st 0 1 (DecisionState 1 false TokenStartState) [Epsilon 8 (-1); Epsilon 10 (-1)];
    st 0 2 (RuleStartState 3 false) [Epsilon 12 (-1)];
    st 0 3 RuleStopState [];
    st 1 4 (RuleStartState 5 false) [Epsilon 15 (-1)];
    st 1 5 RuleStopState [];
    st 2 6 (RuleStartState 7 false) [Epsilon 17 (-1)];
    st 2 7 RuleStopState [];
    st 3 8 (RuleStartState 9 false) [Epsilon 19 (-1)];
    st 3 9 RuleStopState [];
    st 4 10 (RuleStartState 11 false) [Epsilon 21 (-1)];
    st 4 11 RuleStopState [];
    st 0 12 BasicState [Atom 13 34];
    st 0 13 BasicState [Action 14 false 0 0 0];
    st 0 14 BasicState [Action 3 false 0 1 0];
    st 1 15 BasicState [Atom 16 32];
    st 1 16 BasicState [Action 5 false 1 2 0];
    st 2 17 BasicState [Range 18 97 122];
    st 2 18 (DecisionState 2 false PlusLoopBack) [Epsilon 17 (-1); Epsilon 7 (-1)];
    st 3 19 BasicState [Range 20 97 122];
    st 3 20 BasicState [Action 9 false 3 0 0];
    st 4 21 BasicState [Atom 22 34];
    st 4 22 BasicState [Action 23 false 4 3 0];
    st 4 23 BasicState [Action 11 false 4 4 0] ].
Lemma str_formed : lexer_formed str_atn.
Proof.
  split; [vm_compute; discriminate|]. split.
  - intros m [<-|[<-|[]]]; (split; [discriminate|]; intros s E; inversion E; discriminate).
  - intros i s E. each_state E; (split; [reflexivity|split]);
      try (intros t I; cbn in I; each_trans I; (split; [discriminate|]; split; [exact Logic.I|]; split; [cbn; lia|]; cbn; try discriminate; exact Logic.I)).
    all: try (right; left; split; [discriminate|]; split; [reflexivity|]; intros t I; cbn in I; each_trans I; intros X; exact X).
    all: try (right; right; split; [discriminate|]; split; [reflexivity|]; right; eexists; split; [reflexivity | exact Logic.I]).
    all: try (left; split; [reflexivity|]; intros t I; cbn in I; each_trans I; eauto).
Qed.
Ltac str_off := intros [X|[X|[]]]; discriminate X.
Lemma str_apart : rules_apart str_atn.
Proof.
  split.
  - intros i s t E. each_state E; intros N I; cbn in I; each_trans I; (split; [str_off|]).
    all: intros O; try reflexivity.
    all: exfalso; first [apply N; reflexivity | apply O; cbn; tauto].
  - intros i s E. each_state E; intros St; try discriminate St; discriminate.
Qed.
Lemma str_greedy : greedy str_atn.
Proof. intros i s E. each_state E; cbn; auto. Qed.
(** no position of this grammar has a rule to return to *)
Definition str_passed (i : Z) : list lexer_action :=
  if i =? 14 then [LexerMoreAction] else if i =? 3 then [LexerMoreAction; LexerPushModeAction 1] else if i =? 5 then [LexerChannelAction 1]
  else if i =? 9 then [LexerMoreAction] else if i =? 23 then [LexerTypeAction 6] else if i =? 11 then [LexerTypeAction 6; LexerPopModeAction] else [].
Definition str_rank (i : Z) : nat := nth (Z.to_nat i) [2; 2; 1; 0; 1; 0; 1; 0; 1; 0; 1; 0; 0; 2; 1; 0; 1; 0; 1; 0; 1; 0; 2; 1]%nat 0%nat.
Definition str_fresh : list Z := [2; 12; 4; 15; 6; 17; 8; 19; 10; 21].
Lemma str_quiet i ys r : quiet_step str_atn (i, []) ys r ->
  snd r = [] /\ str_passed i ++ ys = str_passed (fst r) /\ (str_rank (fst r) < str_rank i)%nat /\ (In i str_fresh -> In (fst r) str_fresh).
Proof.
  intros S.
  inversion S as [i0 st0 s g n E N I|i0 st0 s g f rr p E N I|i0 f st0 s E N|i0 s g d rr k p x E N I X|i0 f st0 s g d rr k p E N I]; subst; clear S;
  each_state E; try (exfalso; apply N; reflexivity); try discriminate N;
  cbn in I; repeat (destruct I as [I|I]; [first [discriminate I | injection I; intros; subst; clear I]|]); try contradiction.
  all: try (injection X as <-).
  all: split; [reflexivity|]; split; [reflexivity|]; split; [vm_compute; lia|]; intros F; cbn in F |- *; try tauto.
  all: exfalso; repeat (destruct F as [F|F]; [discriminate F|]); contradiction.
Qed.
Lemma str_char i c r : char_step str_atn (i, []) c r -> snd r = [] /\ str_passed i = str_passed (fst r).
Proof.
  intros S. inversion S as [i0 st0 s t c0 E N I Sy]; subst; clear S. each_state E; try (exfalso; apply N; reflexivity);
  cbn in I; repeat (destruct I as [I|I]; [subst t; cbn [symbols] in Sy; try contradiction|]); try contradiction; split; reflexivity.
Qed.
Lemma str_begins m k q : rule_begins str_atn m k q -> In q [2; 4; 6; 8; 10].
Proof.
  intros (ms & s & t & Em & Es & Et & ->). assert (M : ms = 0 \/ ms = 1).
  { unfold item in Em. destruct (m <? 0); [discriminate|]. apply nth_error_In in Em. destruct Em as [<-|[<-|[]]]; auto. }
  destruct M as [-> | ->]; injection Es as <-; do 3 (destruct k as [|k]; [cbn in Et; try discriminate; injection Et as <-; cbn; tauto|]); destruct k; discriminate.
Qed.
Lemma str_run m k q w xs p : rule_begins str_atn m k q -> run str_atn (q, []) w xs p ->
  snd p = [] /\ xs = str_passed (fst p) /\ (w = [] -> In (fst p) str_fresh).
Proof.
  intros B R. apply str_begins in B. induction R as [|w xs p ys r R IH S|w xs p c r R IH S].
  - split; [reflexivity|]. cbn in B. split; [repeat (destruct B as [<-|B]; [reflexivity|]); contradiction | cbn in *; tauto].
  - destruct IH as (K & -> & F). destruct p as [i st]. cbn [fst snd] in *. subst st. destruct (str_quiet _ _ _ S) as (S1 & S2 & _ & S4). auto.
  - destruct IH as (K & -> & F). destruct p as [i st]. cbn [fst snd] in *. subst st. destruct (str_char _ _ _ S) as (S1 & S2).
    split; [exact S1|]. split; [exact S2|]. intros X. destruct w; discriminate X.
Qed.
Lemma str_one_action_list : one_action_list str_atn.
Proof.
  intros m k w xs w' xs' (q & i & s & B & R & E & S) (q' & i' & s' & B' & R' & E' & S').
  destruct (str_run _ _ _ _ _ _ B R) as (_ & -> & _). destruct (str_run _ _ _ _ _ _ B' R') as (_ & -> & _).
  rewrite <- (begins_det _ _ _ _ _ B B') in R'.
  destruct (run_bottom _ str_apart _ _ _ _ (begins_off _ str_formed str_apart _ _ _ B) R) as (_ & E1).
  destruct (run_bottom _ str_apart _ _ _ _ (begins_off _ str_formed str_apart _ _ _ B) R') as (_ & E2).
  rewrite <- E2 in E1. unfold bottom in E1. cbn [snd fst last] in E1.
  each_state E; try discriminate S; each_state E'; try discriminate S'; try reflexivity; discriminate E1.
Qed.
Lemma str_no_empty : no_empty_match str_atn.
Proof.
  intros m k (xs & q & i & s & B & R & E & S). destruct (str_run _ _ _ _ _ _ B R) as (_ & _ & F). specialize (F eq_refl). cbn in F.
  repeat (destruct F as [<-|F]; [injection E as <-; discriminate S|]). contradiction.
Qed.
Lemma str_settles : settles str_atn.
Proof.
  assert (G : forall n i, (str_rank i < n)%nat -> Acc (fun q p => exists xs, quiet_step str_atn p xs q) (i, [])).
  { induction n as [|n IH]; intros i L; [lia|]. constructor. intros [j st] (xs & S). destruct (str_quiet _ _ _ S) as (S1 & _ & S3 & _).
    cbn [fst snd] in *. subst st. apply IH. lia. }
  intros i _. apply (G (Datatypes.S (str_rank i))). lia.
Qed.

(** the text: x, a blank, the string ab, a number sign, y, a quotation mark *)
Definition str_text : list Z := [120; 32; 34; 97; 98; 34; 35; 121; 34].
Notation str_tokens fuel n s :=
  (LexerModel.next_tokens slice_data unit str_atn LexerProps.no_action LexerProps.no_sempred (fun l => l) (fun _ => 0) (fun _ => 0) ideal_hash
     fuel n (new_base_lexer unit (stream_new str_text) tt) s).
Lemma shown ts ss raw cs : Forall2 (shows raw cs Z.of_nat) ts ss ->
  ss = map (fun t => Stretch (Z.to_nat (FactoryModel.start t)) (Z.to_nat (FactoryModel.stop t + 1)) (Made (FactoryModel.token_type t) (FactoryModel.channel t))) ts.
Proof.
  induction 1 as [|t s ts ss (ty & c & E & A1 & A2 & A3 & A4 & _) _ IH]; [reflexivity|]. cbn [map]. rewrite <- IH. f_equal. destruct s as [f o e]. cbn [s_from s_to s_ending] in *.
  subst e. rewrite A1, A2, A3, A4. f_equal; lia.
Qed.
(** The hypotheses are met, from an empty cache.  The tokens are: x; the blank, on channel 1; the
    whole string, of the type of the command; y; the end of the input, which begins where the string
    that is not closed does; again the end of the input.  The number sign is reported. *)
Example C98_nonvacuous :
  reference_class slice_data str_text str_text Z.of_nat unit str_atn LexerProps.no_action LexerProps.no_sempred (fun l => l) (fun _ => 0) (fun _ => 0) ideal_hash /\
  progressing slice_data str_text str_text Z.of_nat unit str_atn LexerProps.no_action LexerProps.no_sempred (fun l => l) (fun _ => 0) (fun _ => 0) ideal_hash /\
  warmed slice_data unit str_atn LexerProps.no_action LexerProps.no_sempred (fun _ => 0) (fun _ => 0) ideal_hash (new_sim str_atn) /\
  match str_tokens 40%nat 6%nat (new_sim str_atn) with
  | Val (ts, l, s) => cache_fits s /\ length ts = 6%nat /\ lx_errors unit l = [(1, 6, [35])]
  | _ => False
  end /\
  exists ss, lexes_to str_atn str_text 6 ss /\ length (filter reported ss) = 1%nat /\
    filter made ss = [Stretch 0 1 (Made 3 0); Stretch 1 2 (Made 2 1); Stretch 2 6 (Made 6 0);
      Stretch 7 8 (Made 3 0); Stretch 8 9 (Made (-1) 0); Stretch 9 9 (Made (-1) 0)].
Proof.
  assert (RC : reference_class slice_data str_text str_text Z.of_nat unit str_atn LexerProps.no_action LexerProps.no_sempred (fun l => l) (fun _ => 0) (fun _ => 0) ideal_hash).
  { split.
    - split; [constructor; repeat constructor; discriminate|]. split; [repeat constructor|]. split; [apply str_formed|]. split; [apply str_apart|].
      split; [apply str_greedy | apply ideal_no_collisions, str_formed].
    - split; [apply str_no_empty|]. split; [apply str_one_action_list|]. split; [intros x I; cbn in I; repeat (destruct I as [<-|I]; [reflexivity|]); contradiction|].
      split; [split; [discriminate|]; intros x I; cbn in I; repeat (destruct I as [<-|I]; [first [exact Logic.I | discriminate]|]); contradiction|].
      split; [|split; intros; reflexivity]. split.
      + intros t I X. cbn in I, X. repeat (destruct I as [I|I]; [try discriminate I; injection I as <-; repeat (destruct X as [X|X]; [discriminate X|]); contradiction|]). contradiction.
      + intros t I X. cbn in I, X. repeat (destruct I as [<-|I]; [repeat (destruct X as [X|X]; [discriminate X|]); contradiction|]). contradiction. }
  split; [exact RC|]. split.
  { split; [constructor; repeat constructor; discriminate|]. split; [apply str_formed|]. split; [apply str_apart|].
    split; [apply str_settles|]. split; [apply str_no_empty|]. split; [apply ideal_no_collisions, str_formed|].
    split; [|intros r i l; reflexivity]. repeat split. }
  split; [constructor|].
  destruct (str_tokens 40%nat 6%nat (new_sim str_atn)) as [[[ts l] s]| |] eqn:E; [|vm_compute in E; discriminate ..].
  assert (F : cache_fits s /\ length ts = 6%nat /\ lx_errors unit l = [(1, 6, [35])] /\
    map (fun t => (FactoryModel.token_type t, FactoryModel.channel t, FactoryModel.start t, FactoryModel.stop t)) ts =
      [(3, 0, 0, 0); (2, 1, 1, 1); (6, 0, 2, 5); (3, 0, 7, 7); (-1, 0, 8, 8); (-1, 0, 9, 8)]).
  { vm_compute in E. injection E as <- <- <-. split; [intros d [<-|[<-|[]]]; vm_compute; reflexivity|]. repeat split. }
  destruct F as (F1 & F2 & F3 & F4). split; [auto|].
  destruct (C98_tokens _ _ _ _ _ _ _ _ _ _ _ _ _ _ _ _ _ _ _ RC (warmed_new _ _ _ _ _ _ _ _) F1 E) as (ss & L & S & R).
  exists ss. split; [exact L|]. split; [rewrite F3 in R; inversion R as [|? ? ? ? _ R0]; inversion R0; reflexivity|].
  rewrite (shown _ _ _ _ S). clear - F4.
  do 7 (destruct ts as [|[] ts]; [try discriminate F4|]); [|discriminate F4]. cbn in F4 |- *. injection F4; intros; subst. reflexivity.
Qed.
