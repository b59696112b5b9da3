(** C35, for grammars with non-greedy rules: a match does not depend on what the cache contains. *)
From Coq Require Import ZArith List Bool Lia.
From Coq Require Import ZifyBool ZifyNat.
From Verif Require Import Outcome CharStreamModel CharStreamSpec PredContextModel SemContextModel
  ConfigSetModel DfaModel AtnModel AtnSpec Ll1Spec LexerModel LexerSpec LexerProofs LexMatchSpec
  LexMatchProofs LexCacheProofs LexTextProofs LexMatchProps LazySpec LazyProofs LazyProps LazyLexSpec LazySameProofs LazyLexProps.
From Verif Require LexerProps.
Import ListNotations.
Local Open Scope Z_scope.

Lemma lazy_ends D raw cs pos U a action sempred ctx_hash actions_hash configs_hash k mode fuel l s r l' s' :
  lazy_class D raw cs pos U a sempred ctx_hash actions_hash configs_hash ->
  warmed D U a action sempred ctx_hash actions_hash configs_hash s ->
  standing raw cs pos U k l -> item (mode_to_start_state a) mode <> None ->
  match_token D U a action sempred ctx_hash actions_hash configs_hash fuel mode l s = Val (r, l', s') -> cache_fits s' ->
  ends_lazy D U a cs k l mode action r l'.
Proof.
  intros (TS & OC & FM & RA & NC) W (Lk & Here) Mo H F. eapply (match_lazy D U a sempred ctx_hash actions_hash configs_hash FM RA NC raw cs pos TS); eauto. eapply warmed_good; eauto.
Qed.

(** The same text from the same place, with whatever in the cache: the same token or the same error,
    and the lexer ends up at the same place, if every rule is greedy or an opening, as few characters
    as possible, and a closing. *)
Theorem C35_lazy_result_partial : forall D raw cs pos U a action sempred ctx_hash actions_hash configs_hash k mode l
    before_emit fuel1 s1 r1 l1 s1' fuel2 s2 r2 l2 s2',
  lazy_class D raw cs pos U a sempred ctx_hash actions_hash configs_hash -> greedy_or_delimited a ->
  place_keeping action sempred before_emit ->
  standing raw cs pos U k l -> item (mode_to_start_state a) mode <> None ->
  warmed D U a action sempred ctx_hash actions_hash configs_hash s1 -> cache_fits s1' ->
  match_token D U a action sempred ctx_hash actions_hash configs_hash fuel1 mode l s1 = Val (r1, l1, s1') ->
  warmed D U a action sempred ctx_hash actions_hash configs_hash s2 -> cache_fits s2' ->
  match_token D U a action sempred ctx_hash actions_hash configs_hash fuel2 mode l s2 = Val (r2, l2, s2') ->
  r1 = r2 /\ same_place l1 l2.
Proof.
  intros D raw cs pos U a action sempred ch ah sh k mode l be f1 s1 r1 l1 s1' f2 s2 r2 l2 s2' LC GD PK St Mo W1 F1 H1 W2 F2 H2.
  assert (E1 := lazy_ends _ _ _ _ _ _ _ _ _ _ _ _ _ _ _ _ _ _ _ LC W1 St Mo H1 F1).
  assert (E2 := lazy_ends _ _ _ _ _ _ _ _ _ _ _ _ _ _ _ _ _ _ _ LC W2 St Mo H2 F2).
  assert (X : forall ex (ln : lexer U) st, same_place ln (match ex with Some e => execute U action e ln st | None => ln end)).
  { intros [e|] ln st; [eapply execute_place; exact PK | apply place_refl]. }
  assert (Sym : forall x y : lexer U, same_place x y -> same_place y x) by (unfold same_place; intuition congruence).
  destruct E1 as [(n & kk & xs & w & ex & ln & ty & A1 & A2 & A3 & A4 & A5 & A6 & -> & ->)|(N & j & B1 & B2 & B3 & B4 & ->)],
           E2 as [(n' & kk' & xs' & w' & ex' & ln' & ty' & A1' & A2' & A3' & A4' & A5' & A6' & -> & ->)|(N' & j' & B1' & B2' & B3' & B4' & ->)].
  - destruct (lazy_one a GD _ _ _ _ _ _ (conj A1 A2) (conj A1' A2')) as (<- & <-). rewrite (type_unique _ _ _ _ _ A3 A3').
    assert (ln' = ln) by congruence. subst ln'. split; [reflexivity|]. eapply place_trans; [apply Sym, X | apply X].
  - exfalso. destruct A1 as (A & B & _). exact (N' n kk A B).
  - exfalso. destruct A1' as (A & B & _). exact (N n' kk' A B).
  - split; [reflexivity|]. destruct (lt_eq_lt_dec j j') as [[L|L]|L].
    + exfalso. eapply B4; [lia|]. apply B3'. lia.
    + subst j'. assert (l1 = l2) by congruence. subst l2. apply place_refl.
    + exfalso. eapply B4'; [lia|]. apply B3. lia.
Qed.
Print Assumptions C35_lazy_result_partial.

(** With one list of position-independent actions per rule, the whole lexer is the same. *)
Theorem C35_lazy_effects_partial : forall D raw cs pos U a action sempred ctx_hash actions_hash configs_hash k mode l
    fuel1 s1 r1 l1 s1' fuel2 s2 r2 l2 s2',
  lazy_class D raw cs pos U a sempred ctx_hash actions_hash configs_hash -> greedy_or_delimited a ->
  (forall r i l, lx_input U (action r i l) = lx_input U l) -> one_action_list a -> no_custom_actions a ->
  standing raw cs pos U k l -> item (mode_to_start_state a) mode <> None ->
  warmed D U a action sempred ctx_hash actions_hash configs_hash s1 -> cache_fits s1' ->
  match_token D U a action sempred ctx_hash actions_hash configs_hash fuel1 mode l s1 = Val (r1, l1, s1') ->
  warmed D U a action sempred ctx_hash actions_hash configs_hash s2 -> cache_fits s2' ->
  match_token D U a action sempred ctx_hash actions_hash configs_hash fuel2 mode l s2 = Val (r2, l2, s2') ->
  r1 = r2 /\ l1 = l2.
Proof.
  intros D raw cs pos U a action sempred ch ah sh k mode l f1 s1 r1 l1 s1' f2 s2 r2 l2 s2' LC GD Ka One NCA St Mo W1 F1 H1 W2 F2 H2.
  assert (E1 := lazy_ends _ _ _ _ _ _ _ _ _ _ _ _ _ _ _ _ _ _ _ LC W1 St Mo H1 F1).
  assert (E2 := lazy_ends _ _ _ _ _ _ _ _ _ _ _ _ _ _ _ _ _ _ _ LC W2 St Mo H2 F2).
  eapply lazy_ends_same; eauto.
Qed.
Print Assumptions C35_lazy_effects_partial.

(** The grammar with comments of C105, whose first rule is not greedy, from an empty cache and from a warm one. *)
Example C35_lazy_nonvacuous :
  let cold := new_sim cm_atn in let warm := cm_warm 5 (cm_warm 6 (cm_warm 0 cold)) in
  lazy_class slice_data cm_text cm_text Z.of_nat unit cm_atn LexerProps.no_sempred (fun _ => 0) (fun _ => 0) ideal_hash /\
  greedy_or_delimited cm_atn /\ ~ greedy_rule cm_atn 0 0 /\ one_action_list cm_atn /\ no_custom_actions cm_atn /\
  place_keeping (U := unit) LexerProps.no_action LexerProps.no_sempred (fun l => l) /\
  standing cm_text cm_text Z.of_nat unit 0 (cm_lexer 0) /\ item (mode_to_start_state cm_atn) 0 <> None /\
  warmed slice_data unit cm_atn LexerProps.no_action LexerProps.no_sempred (fun _ => 0) (fun _ => 0) ideal_hash cold /\
  warmed slice_data unit cm_atn LexerProps.no_action LexerProps.no_sempred (fun _ => 0) (fun _ => 0) ideal_hash warm /\
  (length (flat_map dfa_states (sm_dfas cold)) < length (flat_map dfa_states (sm_dfas warm)))%nat /\
  match cm_match 0 cold, cm_match 0 warm with
  | Val (r1, l1, s1), Val (r2, l2, s2) => cache_fits s1 /\ cache_fits s2 /\ r1 = inl 1 /\ r2 = inl 1 /\ l1 = l2
  | _, _ => False
  end.
Proof.
  cbv zeta. destruct C105_nonvacuous as (N1 & N2 & N3 & _ & _ & _ & N4 & _). destruct C106_nonvacuous as ((_ & _ & O & NC & _) & _ & GD & _).
  split; [exact N1|]. split; [exact GD|]. split; [exact N4|]. split; [exact O|]. split; [exact NC|].
  split. { split; [|split]; intros; repeat split; destruct l; reflexivity. }
  split; [split; [cbn; lia|reflexivity]|]. split; [discriminate|]. split; [exact N2|]. split; [exact N3|].
  split; [apply Nat.ltb_lt; vm_compute; reflexivity|].
  destruct (cm_match 0 (new_sim cm_atn)) as [[[r1 l1] s1]| |] eqn:E1; [|vm_compute in E1; discriminate ..].
  destruct (cm_match 0 (cm_warm 5 (cm_warm 6 (cm_warm 0 (new_sim cm_atn))))) as [[[r2 l2] s2]| |] eqn:E2; [|vm_compute in E2; discriminate ..].
  vm_compute in E1, E2. injection E1 as <- <- <-. injection E2 as <- <- <-.
  split; [intros d [<-|[]]; vm_compute; reflexivity|]. split; [intros d [<-|[]]; vm_compute; reflexivity|]. auto.
Qed.
