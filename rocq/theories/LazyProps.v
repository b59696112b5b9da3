(** C105: lexers with non-greedy decisions ([*?], [+?], [??]). *)
From Coq Require Import ZArith List Bool Lia.
From Coq Require Import ZifyBool ZifyNat.
From Verif Require Import Outcome CharStreamModel CharStreamSpec CharStreamProofs PredContextModel SemContextModel
  ConfigSetModel DfaModel DfaProofs AtnModel AtnSpec Ll1Spec LexerModel LexerSpec LexerProofs LexMatchSpec
  LexMatchProofs LexCacheProofs LexTextProofs LexMatchProps LazySpec LazyProofs.
From Verif Require LexerProps.
Import ListNotations.
Local Open Scope Z_scope.

(** the grammars of C33 and C34, without the condition that every decision is greedy *)
Definition lazy_class D raw cs pos U a sempred ctx_hash actions_hash configs_hash : Prop :=
  text_source D raw cs pos /\ Forall ordinary_char cs /\ lexer_formed a /\ rules_apart a /\
  no_collisions D U a sempred ctx_hash actions_hash configs_hash.

Lemma lazy_index D raw cs pos U a (action : Z -> Z -> lexer U -> lexer U) k mode l r l' : text_source D raw cs pos -> standing raw cs pos U k l ->
  (forall r i l, lx_input U (action r i l) = lx_input U l) -> ends_lazy D U a cs k l mode action r l' ->
  (exists n kk ty, token_of a mode (skipn k cs) n kk /\ (delimited a mode kk -> shortest a mode (skipn k cs) n kk) /\ rule_has_type a mode kk ty /\ r = inl ty /\ lx_input U l' = IStream raw (pos (k + n)%nat)) \/
  (nothing_matches a mode (skipn k cs) /\ r = if Nat.eqb (length (skipn k cs)) 0 then inl (-1) else inr (LexerNoAltError (pos k))).
Proof.
  intros TS (Lk & Here) Ka [(n & kk & xs & w' & ex & ln & ty & L & De & Ty & _ & _ & E & -> & ->)|(N & j & Lj & E & _ & _ & ->)].
  - left. exists n, kk, ty. do 3 (split; [assumption|]). split; [reflexivity|].
    assert (Ln : (k + n <= length cs)%nat) by (destruct L as (L & _); rewrite skipn_length in L; lia).
    rewrite <- (eat_input D U raw cs pos TS k l n ln Here Ln E). destruct ex; [apply execute_input; exact Ka | reflexivity].
  - right. split; [exact N|]. rewrite Here. reflexivity.
Qed.

(** ** C105 *)
(** Whatever decisions of a grammar are non-greedy, and whatever the cache contains: a match is a text of
    one of the rules and has its type; a rule that matches more, or an earlier one that matches the
    same, is passed over only if it is non-greedy and would have been content with less; if the rule is
    an opening, any characters of a set, as few as possible, and a closing, the match is its shortest
    text; and a match fails only if no rule matches anything. *)
Theorem C105_lazy_token : forall D raw cs pos U a action sempred ctx_hash actions_hash configs_hash k mode fuel l s r l' s',
  lazy_class D raw cs pos U a sempred ctx_hash actions_hash configs_hash ->
  (forall r i l, lx_input U (action r i l) = lx_input U l) ->
  warmed D U a action sempred ctx_hash actions_hash configs_hash s -> cache_fits s' ->
  standing raw cs pos U k l -> item (mode_to_start_state a) mode <> None ->
  match_token D U a action sempred ctx_hash actions_hash configs_hash fuel mode l s = Val (r, l', s') ->
  let rest := skipn k cs in
  match r with
  | inl ty => (exists n rule, token_of a mode rest n rule /\ (delimited a mode rule -> shortest a mode rest n rule) /\
                rule_has_type a mode rule ty /\ lx_input U l' = IStream raw (pos (k + n)%nat)) \/
              (ty = -1 /\ rest = [] /\ nothing_matches a mode rest)
  | inr e => e = LexerNoAltError (pos k) /\ nothing_matches a mode rest
  end.
Proof.
  intros D raw cs pos U a action sempred ch ah sh k mode fuel l s r l' s' (TS & OC & FM & RA & NC) Ka W F St Mo H rest.
  assert (E : ends_lazy D U a cs k l mode action r l').
  { destruct St as (Lk & Here). eapply (match_lazy D U a sempred ch ah sh FM RA NC raw cs pos TS); eauto. eapply warmed_good; eauto. }
  destruct (lazy_index D raw cs pos U a action k mode l r l' TS St Ka E) as [(n & kk & ty & L & De & Ty & -> & I)|(N & ->)].
  - left. exists n, kk. auto.
  - fold rest in N. destruct (Nat.eqb_spec (length (skipn k cs)) 0) as [Z0|Z0].
    + right. split; [reflexivity|]. split; [apply length_zero_iff_nil, Z0 | exact N].
    + split; [reflexivity | exact N].
Qed.
Print Assumptions C105_lazy_token.

(** So the greedy rules of such a grammar lose nothing by the non-greedy ones beside them: what one of
    them matches is taken, or a longer text, or the same text for a rule before it. *)
Theorem C105_greedy_rules : forall D raw cs pos U a action sempred ctx_hash actions_hash configs_hash k mode fuel l s r l' s' n0 k0,
  lazy_class D raw cs pos U a sempred ctx_hash actions_hash configs_hash ->
  (forall r i l, lx_input U (action r i l) = lx_input U l) ->
  warmed D U a action sempred ctx_hash actions_hash configs_hash s -> cache_fits s' ->
  standing raw cs pos U k l -> item (mode_to_start_state a) mode <> None ->
  match_token D U a action sempred ctx_hash actions_hash configs_hash fuel mode l s = Val (r, l', s') ->
  (n0 <= length (skipn k cs))%nat -> greedy_rule a mode k0 -> rule_matches a mode k0 (firstn n0 (skipn k cs)) ->
  exists n rule ty, r = inl ty /\ rule_has_type a mode rule ty /\ rule_matches a mode rule (firstn n (skipn k cs)) /\
    lx_input U l' = IStream raw (pos (k + n)%nat) /\ ((n0 < n)%nat \/ n = n0 /\ (rule <= k0)%nat).
Proof.
  intros D raw cs pos U a action sempred ch ah sh k mode fuel l s r l' s' n0 k0 LC Ka W F St Mo H Ln G M.
  assert (X := C105_lazy_token _ _ _ _ _ _ _ _ _ _ _ _ _ _ _ _ _ _ _ LC Ka W F St Mo H). cbv zeta in X. destruct r as [ty|e].
  2: { destruct X as (_ & N). destruct (N n0 k0 Ln M). }
  destruct X as [(n & rule & (T1 & T2 & T3 & T4) & _ & Ty & I)|(_ & _ & N)]; [|destruct (N n0 k0 Ln M)].
  exists n, rule, ty. do 4 (split; [assumption || reflexivity|]).
  destruct (lt_eq_lt_dec n0 n) as [[L|L]|L]; [left; exact L| |].
  - subst n0. right. split; [reflexivity|]. destruct (le_lt_dec rule k0) as [L'|L']; [exact L'|]. destruct (T4 k0 L' M) as (X & _). contradiction.
  - destruct (T3 n0 k0 ltac:(lia) M) as (X & _). contradiction.
Qed.
Print Assumptions C105_greedy_rules.

(** So the token of a rule of that form ends where its first closing does, whatever follows: if the other
    rules match only shorter texts there, then the token is the shortest text of the rule. *)
Theorem C105_first_closing : forall D raw cs pos U a action sempred ctx_hash actions_hash configs_hash k mode fuel l s r l' s' n0 k0,
  lazy_class D raw cs pos U a sempred ctx_hash actions_hash configs_hash ->
  (forall r i l, lx_input U (action r i l) = lx_input U l) ->
  warmed D U a action sempred ctx_hash actions_hash configs_hash s -> cache_fits s' ->
  standing raw cs pos U k l -> item (mode_to_start_state a) mode <> None ->
  match_token D U a action sempred ctx_hash actions_hash configs_hash fuel mode l s = Val (r, l', s') ->
  let rest := skipn k cs in
  delimited a mode k0 ->
  (forall n' k', (n' <= length rest)%nat -> rule_matches a mode k' (firstn n' rest) -> k' = k0 \/ (n' < n0)%nat) ->
  (n0 <= length rest)%nat -> rule_matches a mode k0 (firstn n0 rest) -> shortest a mode rest n0 k0 ->
  exists ty, r = inl ty /\ rule_has_type a mode k0 ty /\ lx_input U l' = IStream raw (pos (k + n0)%nat).
Proof.
  intros D raw cs pos U a action sempred ch ah sh k mode fuel l s r l' s' n0 k0 LC Ka W F St Mo H rest De On Ln M Sh.
  assert (X := C105_lazy_token _ _ _ _ _ _ _ _ _ _ _ _ _ _ _ _ _ _ _ LC Ka W F St Mo H). cbv zeta in X. fold rest in X. destruct r as [ty|e].
  2: { destruct X as (_ & N). destruct (N n0 k0 Ln M). }
  destruct X as [(n & rule & (T1 & T2 & T3 & T4) & De' & Ty & I)|(_ & _ & N)]; [|destruct (N n0 k0 Ln M)].
  assert (L : ~ (n < n0)%nat).
  { intros L. destruct (T3 n0 k0 ltac:(lia) M) as (_ & n' & L' & M'). apply (Sh n'); [lia | exact M']. }
  destruct (On n rule T1 T2) as [->|Q]; [|contradiction].
  assert (n = n0).
  { destruct (le_lt_dec n n0) as [Q|Q]; [lia|]. destruct (De' De n0 Q M). }
  subst n. exists ty. auto.
Qed.
Print Assumptions C105_first_closing.

(** ** A grammar for the example:  CMT : '/*' .*? '*' '/' ;  DIV : '/' ;  ID : [a-z]+ ; *)
Definition cm_atn : atn := Atn [0] LEXER [] 3 [0] [1; 3; 5] [2; 4; 6] [1; 2; 3]
  [ st 0 0 (DecisionState 0 false TokenStartState) [Epsilon 1 (-1); Epsilon 3 (-1); Epsilon 5 (-1)];
    st 0 1 (RuleStartState 2 false) [Epsilon 7 (-1)];
    st 0 2 RuleStopState [];
    st 1 3 (RuleStartState 4 false) [Epsilon 20 (-1)];
    st 1 4 RuleStopState [];
    st 2 5 (RuleStartState 6 false) [Epsilon 18 (-1)];
    st 2 6 RuleStopState [];
    st 0 7 BasicState [Atom 8 47];
    st 0 8 BasicState [Atom 9 42];
    st 0 9 (DecisionState 1 true (StarLoopEntry 13 false)) [Epsilon 14 (-1); Epsilon 10 (-1)];
    st 0 10 (DecisionState 2 false (BlockStartState 12 StarBlockStart)) [Epsilon 11 (-1)];
    st 0 11 BasicState [Wildcard 12];
    st 0 12 (BlockEndState 10) [Epsilon 13 (-1)];
    st 0 13 StarLoopbackState [Epsilon 9 (-1)];
    st 0 14 (LoopEndState 13) [Epsilon 15 (-1)];
    st 0 15 BasicState [Atom 16 42];
    st 0 16 BasicState [Atom 17 47];
    st 0 17 BasicState [Epsilon 2 (-1)];
    st 2 18 BasicState [Range 19 97 122];
    st 2 19 (DecisionState 3 false PlusLoopBack) [Epsilon 18 (-1); Epsilon 6 (-1)];
    st 1 20 BasicState [Atom 21 47];
    st 1 21 BasicState [Epsilon 4 (-1)] ].
Lemma cm_formed : lexer_formed cm_atn.
Proof.
  split; [vm_compute; discriminate|]. split.
  - intros m [<-|[]]. split; [discriminate|]. intros s E. inversion E. discriminate.
  - intros i s E. each_state E; (split; [reflexivity|split]);
      try (intros t I; cbn in I; each_trans I; (split; [discriminate|]; split; [exact Logic.I|]; split; [cbn; lia|]; cbn; try discriminate; exact Logic.I)).
    all: try (right; left; split; [discriminate|]; split; [reflexivity|]; intros t I; cbn in I; each_trans I; intros X; exact X).
    all: try (right; right; split; [discriminate|]; split; [reflexivity|]; right; eexists; split; [reflexivity | exact Logic.I]).
    all: try (left; split; [reflexivity|]; intros t I; cbn in I; each_trans I; eauto).
Qed.
Lemma cm_apart : rules_apart cm_atn.
Proof.
  split.
  - intros i s t E. each_state E; intros N I; cbn in I; each_trans I; (split; [off_mode|]).
    all: try (split; [off_mode|]).
    all: intros O; try reflexivity.
    all: exfalso; first [apply N; reflexivity | apply O; left; reflexivity].
  - intros i s E. each_state E; intros St; try discriminate St; discriminate.
Qed.
(** the text: a comment, a letter, and what could be the end of the comment *)
Definition cm_text : list Z := [47; 42; 97; 42; 47; 98; 42; 47].
Definition cm_lexer (k : Z) : lexer unit := with_input unit (new_base_lexer unit (stream_new cm_text) tt) (IStream cm_text k).
Notation cm_match k s :=
  (match_token slice_data unit cm_atn LexerProps.no_action LexerProps.no_sempred (fun _ => 0) (fun _ => 0) ideal_hash 60 0 (cm_lexer k) s).
Definition cm_outcome (k : Z) (s : sim) : option (match_result * Z) :=
  match cm_match k s with Val (r, l, _) => Some (r, is_index (lx_input unit l)) | _ => None end.
Definition cm_warm (k : Z) (s : sim) : sim := match cm_match k s with Val (_, _, s') => s' | _ => s end.
Lemma cm_class : lazy_class slice_data cm_text cm_text Z.of_nat unit cm_atn LexerProps.no_sempred (fun _ => 0) (fun _ => 0) ideal_hash.
Proof.
  split; [constructor; repeat constructor; discriminate|]. split; [repeat constructor|]. split; [apply cm_formed|]. split; [apply cm_apart|].
  apply ideal_no_collisions, cm_formed.
Qed.
Lemma go_quiet a p w xs i st s g n : run a p w xs (i, st) -> state_at a i = Some s -> ~ is_stop s -> In (Epsilon g n) (st_trans s) -> run a p w xs (g, st).
Proof. intros R E N I. rewrite <- (app_nil_r xs). eapply run_quiet; [exact R | econstructor; eauto]. Qed.
Lemma go_char a p w xs i st s t c : run a p w xs (i, st) -> state_at a i = Some s -> ~ is_stop s -> In t (st_trans s) -> symbols t 0 1114111 c ->
  run a p (w ++ [c]) xs (get_target t, st).
Proof. intros R E N I C. eapply run_char; [exact R | econstructor; eauto]. Qed.
(** from the last step to the first: a quiet step from state [i]; a character from state [i] *)
Ltac quiet i := eapply (go_quiet _ _ _ _ i _ _ _ (-1)); [|reflexivity | discriminate | cbn; tauto].
Ltac char i w t := match goal with |- run ?a ?p ?v ?xs _ => change (run a p (w ++ [last v 0]) xs (get_target t, [])) end;
  eapply (go_char _ _ w _ i _ _ t); [|reflexivity | discriminate | left; reflexivity | cbn; lia].
Ltac body w := quiet 13; quiet 12; char 11 w (Wildcard 12); quiet 10; quiet 9.
Lemma cm_long : rule_matches cm_atn 0 0 cm_text.
Proof.
  exists [], 1, 2. eexists. split; [exists 0; do 2 eexists; repeat split; reflexivity|]. split; [|split; reflexivity]. unfold cm_text.
  quiet 17. char 16 [47; 42; 97; 42; 47; 98; 42] (Atom 17 47). char 15 [47; 42; 97; 42; 47; 98] (Atom 16 42). quiet 14. quiet 9.
  body [47; 42; 97; 42; 47]. body [47; 42; 97; 42]. body [47; 42; 97]. body [47; 42].
  char 8 [47] (Atom 9 42). char 7 (@nil Z) (Atom 8 47). quiet 1. constructor.
Qed.
Lemma cm_id_greedy : greedy_rule cm_atn 0 2.
Proof.
  intros q w xs p (m & s & t & Em & Es & Et & ->) R. injection Em as <-. injection Es as <-. injection Et as <-. cbn [get_target] in R.
  assert (G : snd p = [] /\ In (fst p) [5; 18; 19; 6]).
  { induction R as [|w xs [i l] ys q R IH Q|w xs [i l] c q R IH C].
    - split; [reflexivity | left; reflexivity].
    - destruct IH as (E & I). cbn in E. subst l. cbn in I.
      repeat (destruct I as [<-|I]; [inversion Q as [? ? ? ? ? Es N In'|? ? ? ? ? ? ? Es N In'|? ? ? ? Es N|? ? ? ? ? ? ? ? Es N In'|? ? ? ? ? ? ? ? ? Es N In']; subst; injection Es as <-;
        cbn in *; repeat (destruct In' as [In'|In']; [inversion In'; subst; cbn; tauto|]); try contradiction; try discriminate|]); contradiction.
    - destruct IH as (E & I). cbn in E. subst l. cbn in I.
      repeat (destruct I as [<-|I]; [inversion C as [? ? ? t ? Es N In' S]; subst; injection Es as <-;
        cbn in *; repeat (destruct In' as [<-|In']; [cbn in *; tauto|]); try contradiction|]); contradiction. }
  intros (s & E & N). destruct G as (_ & G). cbn in G.
  repeat (destruct G as [G|G]; [rewrite <- G in E; injection E as <-; cbn in N; (contradiction || discriminate)|]). contradiction.
Qed.
Lemma cm_not_greedy : ~ greedy_rule cm_atn 0 0.
Proof.
  intros G. apply (G 1 [47; 42] [] (9, [])); [exists 0; do 2 eexists; repeat split; reflexivity| |eexists; split; reflexivity].
  char 8 [47] (Atom 9 42). char 7 (@nil Z) (Atom 8 47). quiet 1. constructor.
Qed.
(** [CMT] is a rule of the form: opening 7 8, loop 9, body 11, closing 15 16 *)
Lemma cm_delimited : delimited cm_atn 0 0.
Proof.
  assert (Rd : forall i s t, state_at cm_atn i = Some s -> ~ is_stop s -> st_trans s = [t] -> consuming t -> reads_one cm_atn i t) by (intros; eexists; eauto).
  exists 1, 7, 9. eexists. exists 14, (-1), 10, (-1), 15, 1%nat, 11, (Wildcard 12).
  split; [exists 0; do 2 eexists; repeat split; reflexivity|].
  split; [eapply leads_on; [reflexivity | discriminate | reflexivity | apply leads_here]|].
  split.
  { eapply (opening_more _ _ 7 (Atom 8 47) 8); [eapply Rd; [reflexivity | discriminate | reflexivity | exact I] | apply leads_here|].
    eapply (opening_last _ _ 8 (Atom 9 42)); [eapply Rd; [reflexivity | discriminate | reflexivity | exact I] | apply leads_here]. }
  split; [reflexivity|]. split; [reflexivity|]. split; [reflexivity|].
  split; [eapply leads_on; [reflexivity | discriminate | reflexivity | apply leads_here]|].
  split.
  { eapply (closing_more _ 0 15 (Atom 16 42) 16); [eapply Rd; [reflexivity | discriminate | reflexivity | exact I] | apply leads_here|].
    eapply (closing_last _ 16 (Atom 17 47)); [eapply Rd; [reflexivity | discriminate | reflexivity | exact I]|].
    eapply finishes_on; [reflexivity | discriminate | reflexivity|]. eapply finishes_here; reflexivity. }
  split; [eapply leads_on; [reflexivity | discriminate | reflexivity | apply leads_here]|].
  split; [eapply Rd; [reflexivity | discriminate | reflexivity | exact I]|].
  eapply leads_on; [reflexivity | discriminate | reflexivity|]. eapply leads_on; [reflexivity | discriminate | reflexivity | apply leads_here].
Qed.

(** The comment ends at the first end of a comment, although the rule matches the whole text, too, in
    this ATN; the identifier rule is greedy; an unfinished comment is a division sign.  All of it from
    an empty cache and from a warm one. *)
Example C105_nonvacuous :
  let cold := new_sim cm_atn in let warm := cm_warm 5 (cm_warm 6 (cm_warm 0 cold)) in
  lazy_class slice_data cm_text cm_text Z.of_nat unit cm_atn LexerProps.no_sempred (fun _ => 0) (fun _ => 0) ideal_hash /\
  warmed slice_data unit cm_atn LexerProps.no_action LexerProps.no_sempred (fun _ => 0) (fun _ => 0) ideal_hash cold /\
  warmed slice_data unit cm_atn LexerProps.no_action LexerProps.no_sempred (fun _ => 0) (fun _ => 0) ideal_hash warm /\
  map (fun k => cm_outcome k cold) [0; 4; 5; 6; 7; 8] =
    [Some (inl 1, 5); Some (inl 2, 5); Some (inl 3, 6); Some (inr (LexerNoAltError 6), 6); Some (inl 2, 8); Some (inl (-1), 8)] /\
  map (fun k => cm_outcome k warm) [0; 4; 5; 6; 7; 8] = map (fun k => cm_outcome k cold) [0; 4; 5; 6; 7; 8] /\
  rule_matches cm_atn 0 0 cm_text /\ ~ greedy_rule cm_atn 0 0 /\ greedy_rule cm_atn 0 2 /\
  token_of cm_atn 0 cm_text 5 0 /\ delimited cm_atn 0 0 /\ shortest cm_atn 0 cm_text 5 0.
Proof.
  cbv zeta.
  assert (Wm : forall s k, warmed slice_data unit cm_atn LexerProps.no_action LexerProps.no_sempred (fun _ => 0) (fun _ => 0) ideal_hash s ->
    warmed slice_data unit cm_atn LexerProps.no_action LexerProps.no_sempred (fun _ => 0) (fun _ => 0) ideal_hash (cm_warm k s)).
  { intros s k W. unfold cm_warm. destruct (cm_match k s) as [[[r l] s']| |] eqn:E; auto. eapply warmed_match; [exact W | exact E]. }
  split; [apply cm_class|]. split; [constructor|]. split; [do 3 apply Wm; constructor|].
  split; [vm_compute; reflexivity|]. split; [vm_compute; reflexivity|]. split; [exact cm_long|]. split; [exact cm_not_greedy|].
  split; [exact cm_id_greedy|].
  destruct (cm_match 0 (new_sim cm_atn)) as [[[r l] s]| |] eqn:E; [|vm_compute in E; discriminate ..].
  assert (H := C105_lazy_token slice_data cm_text cm_text Z.of_nat unit cm_atn LexerProps.no_action LexerProps.no_sempred (fun _ => 0) (fun _ => 0) ideal_hash
     0 0 60 (cm_lexer 0) (new_sim cm_atn) r l s cm_class (fun _ _ _ => eq_refl) (warmed_new _ _ _ _ _ _ _ _)).
  assert (F : cache_fits s /\ r = inl 1 /\ is_index (lx_input unit l) = 5).
  { vm_compute in E. injection E as <- <- <-. split; [intros d [<-|[]]; vm_compute; reflexivity | auto]. }
  destruct F as (F & -> & L).
  assert (Sd : standing cm_text cm_text Z.of_nat unit 0 (cm_lexer 0)) by (split; [cbn; lia | reflexivity]).
  assert (Mo : item (mode_to_start_state cm_atn) 0 <> None) by discriminate.
  specialize (H F Sd Mo E). cbn beta iota zeta in H.
  destruct H as [(n & rule & H & Hd & (q & Bq & Ty) & Hi)|(X & _)]; [|discriminate X]. rewrite Hi in L. cbn [is_index] in L. replace n with 5%nat in H, Hd by lia.
  assert (rule = 0%nat).
  { destruct Bq as (m & s1 & t & Em & Es & Et & ->). injection Em as <-. injection Es as <-.
    destruct rule as [|[|[|[|rule]]]]; cbn in Et; try discriminate Et; injection Et as <-; vm_compute in Ty; congruence. }
  subst rule. split; [exact H|]. split; [exact cm_delimited | exact (Hd cm_delimited)].
Qed.
