(** Proofs about lexers with non-greedy rules (C35, C92, C106): when the outcome of a match is determined. *)
From Coq Require Import ZArith List Bool Lia.
From Coq Require Import ZifyBool ZifyNat.
From Verif Require Import Outcome CharStreamModel CharStreamSpec PredContextModel SemContextModel
  ConfigSetModel DfaModel AtnModel AtnSpec Ll1Spec LexerModel LexerSpec LexerProofs LexMatchSpec
  LexMatchProofs LexCacheProofs LexTextProofs LexMatchProps LazySpec LazyProofs LazyLexSpec.
Import ListNotations.
Local Open Scope Z_scope.

Lemma lazy_one a : greedy_or_delimited a -> forall mode rest n rule n' rule', lazy_munch a mode rest n rule -> lazy_munch a mode rest n' rule' -> n = n' /\ rule = rule'.
Proof.
  intros GD. assert (W : forall mode rest n rule n' rule', lazy_munch a mode rest n rule -> lazy_munch a mode rest n' rule' -> ~ (n < n')%nat).
  { intros mode rest n rule n' rule' ((A1 & A2 & A3 & A4) & _) ((B1 & B2 & _) & Sh) L. destruct (A3 n' rule' ltac:(lia) B2) as (G & i & Li & M).
    destruct (GD mode rule') as [X|X]; [contradiction|]. exact (Sh X i ltac:(lia) M). }
  assert (W' : forall mode rest n rule rule', lazy_munch a mode rest n rule -> lazy_munch a mode rest n rule' -> ~ (rule < rule')%nat).
  { intros mode rest n rule rule' ((A1 & A2 & _) & Sh) ((B1 & B2 & B3 & B4) & _) L. destruct (B4 rule L A2) as (G & i & Li & M).
    destruct (GD mode rule) as [X|X]; [contradiction|]. exact (Sh X i Li M). }
  intros mode rest n rule n' rule' A B. assert (n = n') by (pose proof (W _ _ _ _ _ _ A B); pose proof (W _ _ _ _ _ _ B A); lia). subst n'.
  split; [reflexivity|]. pose proof (W' _ _ _ _ _ A B). pose proof (W' _ _ _ _ _ B A). lia.
Qed.
Lemma lazy_ends_same D cs U a (action : Z -> Z -> lexer U -> lexer U) k mode l r1 l1 r2 l2 : greedy_or_delimited a ->
  (forall r i l, lx_input U (action r i l) = lx_input U l) -> one_action_list a -> no_custom_actions a ->
  ends_lazy D U a cs k l mode action r1 l1 -> ends_lazy D U a cs k l mode action r2 l2 -> r1 = r2 /\ l1 = l2.
Proof.
  intros GD Ka One NCA E1 E2.
  destruct E1 as [(n & kk & xs & w & ex & ln & ty & A1 & A2 & A3 & A4 & A5 & A6 & -> & ->)|(N & j & B1 & B2 & B3 & B4 & ->)],
           E2 as [(n' & kk' & xs' & w' & ex' & ln' & ty' & A1' & A2' & A3' & A4' & A5' & A6' & -> & ->)|(N' & j' & B1' & B2' & B3' & B4' & ->)].
  - destruct (lazy_one a GD _ _ _ _ _ _ (conj A1 A2) (conj A1' A2')) as (<- & <-). rewrite (type_unique _ _ _ _ _ A3 A3').
    assert (ln' = ln) by congruence. subst ln'. split; [reflexivity|]. rewrite (One _ _ _ _ _ _ A4' A4) in A5'.
    assert (Xs : forall e, map bare e = map bare xs -> Forall (fun x => is_position_dependent (bare x) = false) e).
    { intros e E. destruct A4 as (q & i & st & _ & R & _). assert (Fx : Forall (fun x => is_position_dependent (bare x) = false) xs).
      { apply Forall_forall. intros x I. assert (I' := NCA x (run_actions _ _ _ _ _ R x I)). destruct x; auto; discriminate. }
      clear - E Fx. revert xs E Fx. induction e as [|x e IH]; intros [|y xs] E F; cbn in E; try discriminate; constructor; inversion E; inversion F; subst; eauto. congruence. }
    assert (G : forall ex, map bare (match ex with Some e => ex_actions e | None => [] end) = map bare xs ->
      match ex with Some e => execute U action e ln (is_index (lx_input U l)) | None => ln end =
      fold_left (as_placed action (is_index (lx_input U l)) (is_index (lx_input U ln))) xs ln).
    { intros [e|] E.
      - rewrite execute_ok by exact Ka. apply execute_same; auto.
      - destruct xs; [reflexivity | discriminate]. }
    rewrite (G _ A5), (G _ A5'). reflexivity.
  - exfalso. destruct A1 as (A & B & _). exact (N' n kk A B).
  - exfalso. destruct A1' as (A & B & _). exact (N n' kk' A B).
  - split; [reflexivity|]. destruct (lt_eq_lt_dec j j') as [[L|L]|L].
    + exfalso. eapply B4; [lia|]. apply B3'. lia.
    + subst j'. congruence.
    + exfalso. eapply B4'; [lia|]. apply B3. lia.
Qed.
