(** Properties of lexers of threads that share DFAs: C92, and what C91 means for lexers. *)
From Coq Require Import ZArith List Bool Lia.
From Verif Require Import Outcome CharStreamModel CharStreamSpec PredContextModel SemContextModel
  ConfigSetModel DfaModel AtnModel AtnSpec Ll1Spec LexerModel LexerSpec LexerProofs LexMatchSpec LexMatchProofs LexCacheProofs LexTextProofs.
From Verif Require Import LexerProps LexMatchProps LexTotalProps LazySpec LazyProofs LazyLexSpec LazyProps.
From Verif Require Import ConcModel ConcSpec ConcProofs ConcResultProofs ConcProps ConcLexModel ConcLexSpec ConcLexProofs ConcLexTokensProofs ConcDemo ConcLexDemo.
From Verif Require FactoryModel.
Import ListNotations.
Local Open Scope Z_scope.

(** ** C92 *)
Lemma all_fit_before D U a action sempred ch ah sh code ts s s' : Forall (lexing D U a action sempred ch ah sh code) ts ->
  steps (start ConcLexModel.new_dfas ts) s -> steps s s' -> all_fit U s' -> all_fit U s.
Proof.
  intros F H H' A k. assert (L := grows longer (fun d => Nat.le_refl _) (fun x y z => Nat.le_trans _ _ _) (lexing_job D U a action sempred ch ah sh code)).
  assert (P : forall k j, lexing_job D U a action sempred ch ah sh code k j -> growing longer j) by (intros k0 j (_ & fuel & l & p & ->); apply match_growing).
  specialize (L P _ _ _ _ F H H' k). unfold longer in L. specialize (A k). lia.
Qed.

(** Whatever other threads do with the DFAs, and in whatever order: each match of a lexer is one that the
    grammar allows, as in C105. *)
Theorem C92_lazy_token_partial : forall D raw cs pos U a action sempred ctx_hash actions_hash configs_hash code ts s k l n r p' l',
  lazy_class D raw cs pos U a sempred ctx_hash actions_hash configs_hash ->
  (forall r i l, lx_input U (action r i l) = lx_input U l) -> no_custom_actions a ->
  Forall (lexing D U a action sempred ctx_hash actions_hash configs_hash code) ts ->
  steps (start ConcLexModel.new_dfas ts) s -> all_fit U s ->
  has_matched D U a action sempred ctx_hash actions_hash configs_hash code s k l (Val (r, p', l')) -> standing raw cs pos U n l ->
  let rest := skipn n cs in
  match r with
  | inl ty => (exists len rule, token_of a (Z.of_nat k) rest len rule /\ (delimited a (Z.of_nat k) rule -> shortest a (Z.of_nat k) rest len rule) /\
                 rule_has_type a (Z.of_nat k) rule ty /\ lx_input U l' = IStream raw (pos (n + len)%nat)) \/
              (ty = -1 /\ rest = [] /\ nothing_matches a (Z.of_nat k) rest)
  | inr e => e = LexerNoAltError (pos n) /\ nothing_matches a (Z.of_nat k) rest
  end.
Proof.
  intros D raw cs pos U a action sempred ch ah sh code ts s k l n r p' l' LC Ka NCA F St Fit (es & i & later & fuel & p & E) Sd rest.
  pose proof LC as (TS & OC & FM & RA & NC).
  assert (X : exists xs, on k (trace s) = xs ++ later /\ xs = es ++ [Began i k (match_job D U a action sempred ch ah sh code fuel (Z.of_nat k) l p); Ended i k (Val (r, p', l'))]) by (eexists; split; [rewrite E, app_assoc; reflexivity|reflexivity]).
  destruct X as (xs & Ex & Exs). destruct (passed _ _ s k xs later St Ex) as (s1 & St1 & St2 & E1). rewrite Exs in E1. clear Ex Exs xs.
  destruct (found_last D U a action sempred ch ah sh code FM RA NC ts s1 k es i _ _ F St1 E1) as ((Mo & _) & d & G & A).
  assert (W := well_answered D U a action sempred (fun l => l) ch ah sh code FM RA NC NCA raw cs pos TS OC k _ d _ _ G A (all_fit_before _ _ _ _ _ _ _ _ _ _ _ _ F St1 St2 Fit k)).
  specialize (W fuel (Z.of_nat k) l p n r p' l' eq_refl ltac:(lia) Mo Sd eq_refl).
  destruct (lazy_index D raw cs pos U a action n (Z.of_nat k) l r l' TS Sd Ka W) as [(len & rule & ty & L & De & Ty & -> & I)|(N & ->)].
  - left. exists len, rule. auto.
  - fold rest in N. destruct (Nat.eqb_spec (length (skipn n cs)) 0) as [Z0|Z0].
    + right. split; [reflexivity|]. split; [apply length_zero_iff_nil, Z0 | exact N].
    + split; [reflexivity | exact N].
Qed.
Print Assumptions C92_lazy_token_partial.

(** So if all decisions are greedy, it takes the longest prefix that some rule of the mode matches, for
    the first such rule. *)
Theorem C92_longest_match_partial : forall D raw cs pos U a action sempred ctx_hash actions_hash configs_hash code ts s k l n r p' l',
  lexer_class D raw cs pos U a sempred ctx_hash actions_hash configs_hash ->
  (forall r i l, lx_input U (action r i l) = lx_input U l) -> no_custom_actions a ->
  Forall (lexing D U a action sempred ctx_hash actions_hash configs_hash code) ts ->
  steps (start ConcLexModel.new_dfas ts) s -> all_fit U s ->
  has_matched D U a action sempred ctx_hash actions_hash configs_hash code s k l (Val (r, p', l')) -> standing raw cs pos U n l ->
  let rest := skipn n cs in
  match r with
  | inl ty => (exists len rule, longest_match a (Z.of_nat k) rest len /\ first_rule a (Z.of_nat k) (firstn len rest) rule /\
                 rule_has_type a (Z.of_nat k) rule ty /\ lx_input U l' = IStream raw (pos (n + len)%nat)) \/
              (ty = -1 /\ rest = [] /\ nothing_matches a (Z.of_nat k) rest)
  | inr e => e = LexerNoAltError (pos n) /\ nothing_matches a (Z.of_nat k) rest
  end.
Proof.
  intros D raw cs pos U a action sempred ch ah sh code ts s k l n r p' l' (TS & OC & FM & RA & GR & NC) Ka NCA F St Fit H Sd rest.
  assert (X := C92_lazy_token_partial D raw cs pos U a action sempred ch ah sh code ts s k l n r p' l' (conj TS (conj OC (conj FM (conj RA NC)))) Ka NCA F St Fit H Sd).
  cbv zeta in X. fold rest in X. destruct r as [ty|e]; [|exact X]. destruct X as [(len & rule & T & _ & Ty & I)|X]; [left|right; exact X].
  exists len, rule. assert (GA : forall k', greedy_rule a (Z.of_nat k) k') by (intros k'; apply greedy_never; exact GR). destruct T as (A1 & A2 & A3 & A4). split; [|split; [|auto]].
  - split; [exact A1|]. split; [eauto|]. intros n' k' L M. destruct (A3 n' k' ltac:(lia) M) as (Y & _). apply Y, GA.
  - split; [exact A2|]. intros k' L M. destruct (A4 k' L M) as (Y & _). apply Y, GA.
Qed.
Print Assumptions C92_longest_match_partial.

(** A thread that lexes a text gets the tokens it would get without any other thread, and
    its lexer ends up in the same state.  What is missing: grammars with embedded code,
    with non-greedy rules other than an opening, as few characters as possible, and a closing, or
    whose rules pass different actions for different texts (for the latter, see C35). *)
Theorem C92_same_tokens_partial : forall D raw cs pos U a action sempred before_emit ctx_hash actions_hash configs_hash code ts s i fuel n u tokens l',
  lazy_class D raw cs pos U a sempred ctx_hash actions_hash configs_hash -> greedy_or_delimited a ->
  place_keeping action sempred before_emit -> one_action_list a -> no_custom_actions a ->
  Forall (lexing D U a action sempred ctx_hash actions_hash configs_hash code) ts ->
  nth_error ts i = Some (lexer_thread D U a action sempred before_emit ctx_hash actions_hash configs_hash code fuel n (stream_new raw) u) ->
  steps (start ConcLexModel.new_dfas ts) s -> all_fit U s ->
  nth_error (threads s) i = Some (Run (Stop (Val (tokens, l'))) []) ->
  forall fuel2 tokens2 l2 s2,
  next_tokens D U a action sempred before_emit ctx_hash actions_hash configs_hash fuel2 n (new_base_lexer U (stream_new raw) u) (new_sim a) = Val (tokens2, l2, s2) ->
  cache_fits s2 -> tokens = tokens2 /\ l' = l2.
Proof.
  intros D raw cs pos U a action sempred be ch ah sh code ts s i fuel n u tokens l' LC GD KE One NCA F Ei St Fit Done fuel2 tokens2 l2 s2 Seq Fit2.
  pose proof LC as (TS & OC & FM & RA & NC).
  assert (M : may_stop (answers_well D U a action sempred ch ah sh code raw cs pos) (lexer_thread D U a action sempred be ch ah sh code fuel n (stream_new raw) u) (Val (tokens, l'))).
  { apply (comes_to ConcLexModel.new_dfas _ i _ s ts Ei); [|exact St|exact Done].
    intros s1 k es j r St1 St2 E. destruct (found_last D U a action sempred ch ah sh code FM RA NC ts s1 k es i _ _ F St1 E) as (_ & d & G & A).
    exact (well_answered D U a action sempred (fun l => l) ch ah sh code FM RA NC NCA raw cs pos TS OC k j d _ r G A (all_fit_before _ _ _ _ _ _ _ _ _ _ _ _ F St1 St2 Fit k)). }
  assert (At : at_char U raw cs pos 0 (new_base_lexer U (stream_new raw) u)) by apply (between_start D U raw cs pos TS u).
  destruct (tokens_same D U a action sempred be ch ah sh code FM RA NC NCA raw cs pos TS OC KE GD One fuel fuel2 n _ _ _ _ _ _ _ _ _ At (sim_new D U a sempred ch ah sh action) Seq Fit2 M) as (p' & X).
  inversion X. auto.
Qed.
Print Assumptions C92_same_tokens_partial.

(** Lexers in threads do not wait for each other for ever, as long as actions do not lex. *)
Theorem C92_no_deadlock : forall D U a action sempred ctx_hash actions_hash configs_hash d0 ts s,
  Forall (lexing D U a action sempred ctx_hash actions_hash configs_hash (at_once U action)) ts ->
  steps (start d0 ts) s -> finished s \/ exists s', step s s'.
Proof.
  intros D U a action sempred ch ah sh d0 ts s F. apply (C90_no_deadlock _ _ _ (fun k => k)). eapply Forall_impl; [|exact F]. clear. intros t. unfold lexing, ranked.
  induction t as [v|k j c IH|k t IH]; cbn [ranked_thread]; auto. intros ((_ & fuel & l & p & ->) & _ & C). split; [lia|]. split; [apply match_ranked; intros; exact I|]. intros r. apply IH, C.
Qed.
Print Assumptions C92_no_deadlock.

Lemma kw_lexing n text : lexing slice_data unit kw_atn no_action no_sempred (fun _ => 0) (fun _ => 0) ideal_hash kw_code (kw_thread n text).
Proof. unfold kw_thread. exact (lexer_lexing slice_data unit kw_atn no_action no_sempred no_hook (fun _ => 0) (fun _ => 0) ideal_hash kw_code (fun e si l => I) 40 n (stream_new text) tt). Qed.
Lemma two_lexing : Forall (lexing slice_data unit kw_atn no_action no_sempred (fun _ => 0) (fun _ => 0) ideal_hash kw_code) two.
Proof. unfold two. constructor; [apply kw_lexing|]. constructor; [apply kw_lexing|constructor]. Qed.
Lemma two_fit : all_fit unit two_end.
Proof. intros [|k]; [rewrite two_states; reflexivity|]. vm_compute. reflexivity. Qed.
Lemma two_steps : steps (start ConcLexModel.new_dfas two) two_end.
Proof. unfold two_end. apply scheduled. Qed.

Definition kw_alone := next_tokens slice_data unit kw_atn no_action no_sempred no_hook (fun _ => 0) (fun _ => 0) ideal_hash 40 5 (new_base_lexer unit (stream_new kw_text) tt) (new_sim kw_atn).
Definition summary (o : outcome (list FactoryModel.token * lexer unit * sim)) : option (list Z * list nat) :=
  match o with Val (ts, _, s) => Some (map FactoryModel.token_type ts, map (fun d => length (dfa_states d)) (sm_dfas s)) | _ => None end.
Lemma summary_fits o types : summary o = Some (types, [6%nat]) -> exists ts l s, o = Val (ts, l, s) /\ map FactoryModel.token_type ts = types /\ cache_fits s.
Proof.
  destruct o as [[[ts l] s]| |]; intros E; try discriminate. exists ts, l, s. injection E as E1 E2. split; [reflexivity|]. split; [exact E1|].
  intros d I. apply (in_map (fun d => length (dfa_states d))) in I. rewrite E2 in I. destruct I as [I|[]]. rewrite <- I. reflexivity.
Qed.
Lemma kw_alone_fits : exists ts l s, kw_alone = Val (ts, l, s) /\ map FactoryModel.token_type ts = [1; 2; -1; -1; -1] /\ cache_fits s.
Proof. apply summary_fits. vm_compute. reflexivity. Qed.
Example C92_nonvacuous :
  (* the hypotheses are met by two threads, in a schedule in which they take turns *)
  lexer_class slice_data kw_text kw_text Z.of_nat unit kw_atn no_sempred (fun _ => 0) (fun _ => 0) ideal_hash /\
  place_keeping no_action no_sempred no_hook /\ one_action_list kw_atn /\ no_custom_actions kw_atn /\
  Forall (lexing slice_data unit kw_atn no_action no_sempred (fun _ => 0) (fun _ => 0) ideal_hash kw_code) two /\
  steps (start ConcLexModel.new_dfas two) two_end /\ all_fit unit two_end /\
  (* both come to an end, with the tokens that the texts call for *)
  map types (threads two_end) = [Some [1; 2; -1; -1; -1]; Some [2; 1; -1; -1]] /\
  (* as a lexer without other threads does *)
  (exists ts l s, kw_alone = Val (ts, l, s) /\ map FactoryModel.token_type ts = [1; 2; -1; -1; -1] /\ cache_fits s) /\
  (* and the matches with the DFA that they share have been made by both, in turns *)
  map (fun e => match e with Began i _ _ => i | Ended i _ _ => i end) (on 0 (trace two_end)) = [0; 0; 1; 1; 0; 0; 1; 1; 0; 0; 1; 1; 0; 0]%nat.
Proof.
  split; [apply kw_class|]. split. { split; [|split]; intros; repeat split; destruct l; reflexivity. }
  split; [apply kw_one_action_list|]. split; [apply kw_no_custom|]. split; [apply two_lexing|]. split; [apply two_steps|]. split; [apply two_fit|]. split; [apply two_types|].
  split; [apply kw_alone_fits|].
  vm_compute. reflexivity.
Qed.

(** ** C91, for lexers *)
(** A match that, by itself, would get to an action that lexes in the same mode. *)
Theorem C91_lexer_action_deadlocks : forall D U a action sempred ctx_hash actions_hash configs_hash code d0 ts i k fuel l p c j' c',
  nth_error ts i = Some (Predict k (match_job D U a action sempred ctx_hash actions_hash configs_hash code fuel (Z.of_nat k) l p) c) ->
  (forall x t, nth_error ts x = Some t -> x <> i -> uses (fun k' _ => k' <> k) t) ->
  first_call (match_job D U a action sempred ctx_hash actions_hash configs_hash code fuel (Z.of_nat k) l p) (d0 k) = Some (Predict k j' c') ->
  forall s, steps (start d0 ts) s -> (forall v, nth_error (threads s) i <> Some (Run (Stop v) [])) /\ exists s', steps s s' /\ deadlock s'.
Proof.
  intros D U a action sempred ch ah sh code d0 ts i k fuel l p c j' c' E Us Fc. apply (C91_reentry_deadlocks _ _ _ d0 ts i k _ c E (fun k' _ => k' <> k) Us (eq (d0 k))).
  - reflexivity.
  - intros j d d' r N. now destruct N.
  - intros d <-. eauto.
Qed.
Print Assumptions C91_lexer_action_deadlocks.

Definition lexes_again (k : nat) (o : option (lthread unit)) : bool := match o with Some (Predict k' _ _) => Nat.eqb k' k | _ => false end.
Lemma lexes_again_is k o : lexes_again k o = true -> exists j' c', o = Some (Predict k j' c').
Proof. destruct o as [[v|k' j' c'|k' t]|]; try discriminate. intros E. apply Nat.eqb_eq in E. subst. eauto. Qed.
Lemma act_again : lexes_again 0 (first_call (act_match act_code) (ConcLexModel.new_dfas 0)) = true.
Proof. vm_compute. reflexivity. Qed.
Lemma act_deadlock : forall s, steps (start ConcLexModel.new_dfas [act_thread]) s ->
  (forall v, nth_error (threads s) 0 <> Some (Run (Stop v) [])) /\ exists s', steps s s' /\ deadlock s'.
Proof.
  destruct (lexes_again_is _ _ act_again) as (j' & c' & E).
  apply (C91_lexer_action_deadlocks slice_data unit act_atn no_action no_sempred (fun _ => 0) (fun _ => 0) ideal_hash act_code ConcLexModel.new_dfas [act_thread] 0 0 40
    (new_base_lexer unit (stream_new [97]) tt) (sm_prev_accept (new_sim act_atn)) (fun _ => Stop Panics) j' c').
  - reflexivity.
  - intros [|x] t Ex N; [now destruct N|]. destruct x; discriminate.
  - exact E.
Qed.
Lemma act_formed : lexer_formed act_atn.
Proof.
  split; [vm_compute; discriminate|]. split.
  - intros m [<-|[]]. split; [discriminate|]. intros s E. inversion E. discriminate.
  - intros i s E. each_state E; (split; [reflexivity|split]);
      try (intros t I; cbn in I; each_trans I; (split; [discriminate|]; split; [exact Logic.I|]; split; [cbn; lia|]; cbn; try discriminate; exact Logic.I)).
    all: try (right; left; split; [discriminate|]; split; [reflexivity|]; intros t I; cbn in I; each_trans I; intros X; exact X).
    all: try (right; right; split; [discriminate|]; split; [reflexivity|]; right; eexists; split; [reflexivity | exact Logic.I]).
    all: try (left; split; [reflexivity|]; intros t I; cbn in I; each_trans I; eauto).
Qed.
Lemma act_apart : rules_apart act_atn.
Proof.
  split.
  - intros i s t E. each_state E; intros N I; cbn in I; each_trans I; (split; [off_mode|]).
    all: try (split; [off_mode|]).
    all: intros O; try reflexivity.
    all: exfalso; first [apply N; reflexivity | apply O; left; reflexivity].
  - intros i s E. each_state E; intros St; try discriminate St; discriminate.
Qed.
Lemma act_class : lexer_class slice_data [97] [97] Z.of_nat unit act_atn no_sempred (fun _ => 0) (fun _ => 0) ideal_hash.
Proof.
  split; [constructor; repeat constructor; discriminate|]. split; [repeat constructor|]. split; [apply act_formed|]. split; [apply act_apart|].
  split; [|apply ideal_no_collisions, act_formed]. intros i s E. each_state E; cbn; auto.
Qed.

(** Lexers whose actions may lex, each with what it does then. *)
Definition lexing_inside D U a action sempred ctx_hash actions_hash configs_hash (t : lthread U) : Prop :=
  uses (fun k j => exists code, lexing_job D U a action sempred ctx_hash actions_hash configs_hash code k j) t.
Lemma act_inside : lexing_inside slice_data unit act_atn no_action no_sempred (fun _ => 0) (fun _ => 0) ideal_hash act_thread.
Proof.
  assert (U0 : forall code, lexing_job slice_data unit act_atn no_action no_sempred (fun _ => 0) (fun _ => 0) ideal_hash code 0 (act_match code)) by (intros code; split; [discriminate|eauto]).
  split; [eauto|]. split; [|intros; exact I]. apply match_uses. intros e si l. split; [eauto|]. split; [|intros; exact I]. apply match_uses. intros; exact I.
Qed.
Theorem C91_nested_lexer_refuted :
  ~ (forall D raw cs pos U a action sempred ctx_hash actions_hash configs_hash ts, lexer_class D raw cs pos U a sempred ctx_hash actions_hash configs_hash ->
     Forall (lexing_inside D U a action sempred ctx_hash actions_hash configs_hash) ts ->
     forall s, steps (start ConcLexModel.new_dfas ts) s -> ~ deadlock s).
Proof.
  intros H. destruct (act_deadlock _ (steps_none _ _ _ _)) as (_ & s & St & Dl).
  refine (H _ _ _ _ _ _ no_action _ _ _ _ [act_thread] act_class _ s St Dl). constructor; [exact act_inside|constructor].
Qed.
Print Assumptions C91_nested_lexer_refuted.
