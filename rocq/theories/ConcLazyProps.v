(** C92, for a grammar with a non-greedy rule: two threads that share its DFA. *)
From Coq Require Import ZArith List Bool Lia.
From Verif Require Import Outcome CharStreamModel CharStreamSpec PredContextModel SemContextModel
  ConfigSetModel DfaModel AtnModel AtnSpec Ll1Spec LexerModel LexerSpec LexerProofs LexMatchSpec LexMatchProofs LexCacheProofs LexTextProofs.
From Verif Require Import LexerProps LexMatchProps LexTotalProps LazySpec LazyProofs LazyLexSpec LazyProps MunchSpec MunchProofs LazyLexProps.
From Verif Require Import ConcModel ConcSpec ConcProofs ConcResultProofs ConcProps ConcLexModel ConcLexSpec ConcLexProofs ConcLexTokensProofs ConcDemo ConcLexDemo ConcLexProps.
From Verif Require FactoryModel.
Import ListNotations.
Local Open Scope Z_scope.

(** In every schedule, the tokens a thread gets for its text, and the errors its lexer tells, are those of the
    reference of C106 (of C98, if all decisions are greedy), if a lexer alone comes back on the text, as it does by C37.  What is missing: as in [C92_same_tokens_partial]. *)
Theorem C92_reference_partial : forall D raw cs pos U a action sempred before_emit ctx_hash actions_hash configs_hash code ts s i fuel n u tokens l' fuel2 tokens2 l2 s2,
  lazy_reference_class D raw cs pos U a action sempred before_emit ctx_hash actions_hash configs_hash -> greedy_or_delimited a ->
  place_keeping action sempred before_emit ->
  Forall (lexing D U a action sempred ctx_hash actions_hash configs_hash code) ts ->
  nth_error ts i = Some (lexer_thread D U a action sempred before_emit ctx_hash actions_hash configs_hash code fuel n (stream_new raw) u) ->
  steps (start ConcLexModel.new_dfas ts) s -> all_fit U s ->
  next_tokens D U a action sempred before_emit ctx_hash actions_hash configs_hash fuel2 n (new_base_lexer U (stream_new raw) u) (new_sim a) = Val (tokens2, l2, s2) -> cache_fits s2 ->
  nth_error (threads s) i = Some (Run (Stop (Val (tokens, l'))) []) ->
  (exists ss, lexes_lazily a cs n ss) /\
  forall ss, lexes_lazily a cs n ss -> Forall2 (shows raw cs pos) tokens (filter made ss) /\ Forall2 (reports raw cs pos) (lx_errors U l') (filter reported ss).
Proof.
  intros D raw cs pos U a action sempred be ch ah sh code ts s i fuel n u tokens l' f2 ts2 l2 s2 RC GD PK F Ei St Fit E F2 Done.
  destruct (C106_tokens _ _ _ _ _ _ _ _ _ _ _ _ _ _ _ _ _ _ _ RC (warmed_new _ _ _ _ _ _ _ _) F2 E) as (ss & L & Sh & R).
  destruct RC as (LC & _ & One & NCA & _).
  destruct (C92_same_tokens_partial D raw cs pos U a action sempred be ch ah sh code ts s i fuel n u tokens l' LC GD PK One NCA F Ei St Fit Done _ _ _ _ E F2) as (-> & ->).
  split; [eauto|]. intros ss' L'. rewrite (C106_unique _ _ _ _ _ GD One L' L). auto.
Qed.
Print Assumptions C92_reference_partial.

(** one thread lexes the text of C105, the other b and a comment *)
Notation cm_thread n text :=
  (lexer_thread slice_data unit cm_atn no_action no_sempred no_hook (fun _ => 0) (fun _ => 0) ideal_hash kw_code 60 n (stream_new text) tt).
Definition cm_other : list Z := [98; 47; 42; 120; 42; 47].
Definition pair : list (lthread unit) := [cm_thread 5 cm_text; cm_thread 3 cm_other].
Definition pair_end := schedule (round_robin 2 200) (start ConcLexModel.new_dfas pair).
Lemma pair_types : map types (threads pair_end) = [Some [1; 3; 2; -1; -1]; Some [3; 1; -1]].
Proof. vm_compute. reflexivity. Qed.
Lemma pair_fit : all_fit unit pair_end.
Proof. intros [|k]; vm_compute; reflexivity. Qed.
Lemma cm_lexing n text : lexing slice_data unit cm_atn no_action no_sempred (fun _ => 0) (fun _ => 0) ideal_hash kw_code (cm_thread n text).
Proof. exact (lexer_lexing slice_data unit cm_atn no_action no_sempred no_hook (fun _ => 0) (fun _ => 0) ideal_hash kw_code (fun e si l => I) 60 n (stream_new text) tt). Qed.
Notation cm_alone := (next_tokens slice_data unit cm_atn no_action no_sempred no_hook (fun _ => 0) (fun _ => 0) ideal_hash 60 5 (new_base_lexer unit (stream_new cm_text) tt) (new_sim cm_atn)).

Lemma types_of c x : types c = Some x -> exists ts l, c = Run (Stop (Val (ts, l))) [].
Proof. unfold types. intros H. repeat match type of H with context [match ?y with _ => _ end] => destruct y; try discriminate end. eauto. Qed.

Lemma pair_lexing : Forall (lexing slice_data unit cm_atn no_action no_sempred (fun _ => 0) (fun _ => 0) ideal_hash kw_code) pair.
Proof. unfold pair; constructor; [apply cm_lexing|]; constructor; [apply cm_lexing|constructor]. Qed.
Lemma pair_steps : steps (start ConcLexModel.new_dfas pair) pair_end.
Proof. unfold pair_end; apply scheduled. Qed.
Lemma no_keeping : place_keeping (U := unit) no_action no_sempred no_hook.
Proof. split; [|split]; intros; repeat split; destruct l; reflexivity. Qed.
Lemma pair_same : lazy_class slice_data cm_text cm_text Z.of_nat unit cm_atn no_sempred (fun _ => 0) (fun _ => 0) ideal_hash -> greedy_or_delimited cm_atn ->
  one_action_list cm_atn -> no_custom_actions cm_atn -> forall ts' l' ts l s,
  nth_error (threads pair_end) 0 = Some (Run (Stop (Val (ts', l'))) []) -> cm_alone = Val (ts, l, s) -> cache_fits s -> ts' = ts /\ l' = l.
Proof.
  intros LC GD O NC ts' l' ts l s E0 E F.
  refine (C92_same_tokens_partial slice_data cm_text cm_text Z.of_nat unit cm_atn no_action no_sempred no_hook (fun _ => 0) (fun _ => 0) ideal_hash kw_code pair pair_end 0 60 5 tt ts' l'
    LC GD no_keeping O NC pair_lexing _ pair_steps pair_fit E0 60 ts l s E F).
  reflexivity.
Qed.

Example C92_lazy_nonvacuous :
  lazy_reference_class slice_data cm_text cm_text Z.of_nat unit cm_atn no_action no_sempred no_hook (fun _ => 0) (fun _ => 0) ideal_hash /\
  lazy_class slice_data cm_text cm_text Z.of_nat unit cm_atn no_sempred (fun _ => 0) (fun _ => 0) ideal_hash /\
  greedy_or_delimited cm_atn /\ ~ greedy_rule cm_atn 0 0 /\
  place_keeping no_action no_sempred no_hook /\ one_action_list cm_atn /\ no_custom_actions cm_atn /\
  Forall (lexing slice_data unit cm_atn no_action no_sempred (fun _ => 0) (fun _ => 0) ideal_hash kw_code) pair /\
  steps (start ConcLexModel.new_dfas pair) pair_end /\ all_fit unit pair_end /\
  (* both come to an end, and the comments end at their first closing *)
  map types (threads pair_end) = [Some [1; 3; 2; -1; -1]; Some [3; 1; -1]] /\
  (* as without the other thread *)
  (exists ts l s, cm_alone = Val (ts, l, s) /\ cache_fits s /\ nth_error (threads pair_end) 0 = Some (Run (Stop (Val (ts, l))) [])) /\
  (* the matches have been made in turns *)
  map (fun e => match e with Began i _ _ => i | Ended i _ _ => i end) (on 0 (trace pair_end)) = [0; 0; 1; 1; 0; 0; 1; 1; 0; 0; 0; 0]%nat.
Proof.
  destruct C106_nonvacuous as (RC & _ & GD & _). pose proof RC as (LC & _ & O & NC & _). split; [exact RC|].
  split; [exact LC|]. split; [exact GD|]. split; [exact cm_not_greedy|].
  split; [exact no_keeping|].
  split; [exact O|]. split; [exact NC|]. split; [exact pair_lexing|].
  split; [exact pair_steps|]. split; [exact pair_fit|]. split; [exact pair_types|]. split.
  - destruct cm_alone as [[[ts l] s]| |] eqn:E; [|vm_compute in E; discriminate ..]. exists ts, l, s. split; [reflexivity|].
    assert (F : cache_fits s) by (vm_compute in E; injection E as _ _ <-; intros d [<-|[]]; vm_compute; reflexivity). split; [exact F|].
    assert (X : exists c, nth_error (threads pair_end) 0 = Some c /\ types c = Some [1; 3; 2; -1; -1]).
    { assert (P := pair_types). destruct (threads pair_end) as [|c cs]; [discriminate|]. exists c. split; [reflexivity|]. injection P as P _. exact P. }
    destruct X as (c & E0 & Ec). apply types_of in Ec as (ts' & l' & ->).
    destruct (pair_same LC GD O NC ts' l' ts l s E0 E F) as (-> & ->). exact E0.
  - vm_compute. reflexivity.
Qed.
