(** Proofs about the words of a text (C99). *)
From Coq Require Import ZArith List Bool Lia.
From Coq Require Import ZifyBool ZifyNat.
From Verif Require Import CharStreamModel TokenStreamModel TokenStreamSpec TokenStreamProofs CommonTokenStreamProofs.
From Verif Require Import Outcome AtnModel LexerModel LexMatchSpec PredictLLSpec WholeSpec MunchSpec MunchProofs LazyLexSpec TextSpec.
From Verif Require FactoryModel WholeProofs CharStreamProofs LazyLexProps.
Import ListNotations.
Local Open Scope Z_scope.

(** ** Readings of different lengths *)
Lemma produces_prefix p a cs d k m n ss : produces p a cs d k m n ss -> forall j, (j <= n)%nat -> exists s1 s2, ss = s1 ++ s2 /\ produces p a cs d k m j s1.
Proof.
  induction 1 as [d k m|k m n ss P IH|k m ty c from to m' n ss S P IH|k m from to e m' n ss S Q P IH]; intros j L.
  - replace j with O by lia. exists [], []. split; [reflexivity | constructor].
  - destruct j as [|j]; [exists []; eexists; split; [reflexivity | constructor]|]. destruct (IH j) as (s1 & s2 & -> & P1); [lia|].
    eexists (_ :: s1), s2. split; [reflexivity | constructor; exact P1].
  - destruct j as [|j]; [exists []; eexists; split; [reflexivity | constructor]|]. destruct (IH j) as (s1 & s2 & -> & P1); [lia|].
    eexists (_ :: s1), s2. split; [reflexivity | econstructor; eauto].
  - destruct j as [|j]; [exists []; eexists; split; [reflexivity | constructor]|]. destruct (IH (Datatypes.S j)) as (s1 & s2 & -> & P1); [lia|].
    eexists (_ :: s1), s2. split; [reflexivity | econstructor; eauto].
Qed.
Lemma produces_last p a cs d k m n ss : produces p a cs d k m n ss -> n <> O -> exists ss' x, ss = ss' ++ [x] /\ made x = true.
Proof.
  induction 1 as [d k m|k m n ss P IH|k m ty c from to m' n ss S P IH|k m from to e m' n ss S Q P IH]; intros L; [congruence| | |].
  - destruct n as [|n]; [inversion P; subst; exists []; eexists; split; [reflexivity | reflexivity]|]. destruct IH as (s' & x & -> & M); [discriminate|]. eexists (_ :: s'), x. split; [reflexivity | exact M].
  - destruct n as [|n]; [inversion P; subst; exists []; eexists; split; [reflexivity | reflexivity]|]. destruct IH as (s' & x & -> & M); [discriminate|]. eexists (_ :: s'), x. split; [reflexivity | exact M].
  - destruct IH as (s' & x & -> & M); [discriminate|]. eexists (_ :: s'), x. split; [reflexivity | exact M].
Qed.
Lemma text_unique a cs ss last ss' last' : greedy_or_delimited a -> one_action_list a -> reads_text a cs ss last -> reads_text a cs ss' last' -> ss = ss' /\ last = last'.
Proof.
  intros GD One. assert (W : forall n n' ss last ss' last', (n <= n')%nat ->
    lexes_lazily a cs n (ss ++ [last]) -> ends_input last -> lexes_lazily a cs n' (ss' ++ [last']) -> Forall (fun s => ~ ends_input s) ss' -> ss = ss' /\ last = last').
  { clear - GD One. intros n n' ss last ss' last' L P E P' F. destruct (produces_prefix _ _ _ _ _ _ _ _ P' n L) as (s1 & s2 & E1 & P1).
    assert (s1 = ss ++ [last]) as -> by (eapply LazyLexProps.C106_unique; eauto). rewrite <- app_assoc in E1. cbn [app] in E1.
    destruct s2 as [|y s2 _] using rev_ind; [apply app_inj_tail in E1 as (-> & ->); auto|].
    rewrite app_comm_cons, app_assoc in E1. apply app_inj_tail in E1 as (-> & ->). rewrite Forall_app in F. destruct F as [_ F]. inversion F; contradiction. }
  intros (n & A1 & A2 & A3) (n' & B1 & B2 & B3). destruct (Nat.le_ge_cases n n') as [L|L].
  - eapply W; eauto.
  - destruct (W _ _ _ _ _ _ L B1 B2 A1 A3) as (-> & ->). auto.
Qed.

(** ** Fewer calls of next_token *)
Lemma fewer_tokens D U a action sempred be ch ah sh fuel k : forall n l s ts l' s', (k <= n)%nat ->
  LexerModel.next_tokens D U a action sempred be ch ah sh fuel n l s = Val (ts, l', s') ->
  exists l1 s1, LexerModel.next_tokens D U a action sempred be ch ah sh fuel k l s = Val (firstn k ts, l1, s1).
Proof.
  induction k as [|k IH]; intros n l s ts l' s' L E; [cbn; eauto|]. destruct n as [|n]; [lia|]. cbn [LexerModel.next_tokens] in *.
  destruct (next_token D U a action sempred be ch ah sh fuel l s) as [[[t l1] s1]| |]; try discriminate. cbn [obindo] in *.
  destruct (LexerModel.next_tokens D U a action sempred be ch ah sh fuel n l1 s1) as [[[ts1 l2] s2]| |] eqn:E1; try discriminate. cbn [obindo] in E. injection E as <- <- <-.
  destruct (IH n l1 s1 ts1 l2 s2 ltac:(lia) E1) as (l3 & s3 & E3). rewrite E3. cbn [obindo firstn]. eauto.
Qed.

(** ** The types the parser reads *)
Lemma lexed_at toks last i t : nth_error toks i = Some t -> lexed toks last i = streamed t.
Proof. intros E. unfold lexed. f_equal. apply nth_error_nth, E. Qed.
Lemma visible_lexed raw cs pos chan toks last ss : Forall2 (shows raw cs pos) toks ss -> Forall (fun s => ~ ends_input s) ss -> FactoryModel.token_type last = -1 ->
  forall i, (i <= length toks)%nat -> visible_types (lexed toks last) (fun c => c = chan) i (types_on chan (skipn i ss)).
Proof.
  intros F NE EL. assert (Ln : length toks = length ss) by (clear - F; induction F; cbn; auto).
  assert (G : forall d i, (d + i = length toks)%nat -> visible_types (lexed toks last) (fun c => c = chan) i (types_on chan (skipn i ss))).
  { induction d as [|d IH]; intros i Hi.
    - rewrite skipn_all2 by lia. apply vis_eof. unfold lexed. rewrite nth_overflow by lia. exact EL.
    - destruct (nth_error toks i) as [t|] eqn:Et; [|apply nth_error_None in Et; lia].
      destruct (nth_error ss i) as [s|] eqn:Es; [|apply nth_error_None in Es; lia].
      assert (X : shows raw cs pos t s) by (destruct (WholeProofs.Forall2_nth _ _ _ F _ _ Es) as (t' & Et' & X); rewrite Et in Et'; injection Et' as <-; exact X).
      assert (Sk : skipn i ss = s :: skipn (Datatypes.S i) ss) by (apply CharStreamProofs.skipn_nth_cons, Es).
      assert (NX : ~ ends_input s) by (rewrite Forall_forall in NE; apply NE; eapply nth_error_In; eauto).
      rewrite Sk. unfold types_on. cbn [flat_map]. fold (types_on chan (skipn (Datatypes.S i) ss)).
      destruct X as (ty & c & E & T & C & _). unfold ends_input in NX. rewrite E in *. specialize (IH (Datatypes.S i) ltac:(lia)).
      pose proof (lexed_at _ last _ _ Et) as La.
      destruct (Z.eqb_spec c chan) as [Q|Q]; cbn [app].
      + replace ty with (t_type (lexed toks last i)) by (rewrite La; exact T). apply vis_token; [rewrite La; intros X; apply NX; rewrite <- T; exact X | rewrite La; cbn; congruence | exact IH].
      + apply vis_hidden; [rewrite La; intros X; apply NX; rewrite <- T; exact X | rewrite La; cbn; congruence | exact IH]. }
  intros i L. apply (G (length toks - i)%nat). lia.
Qed.
Lemma read_lexed raw cs pos chan toks last ss : Forall2 (shows raw cs pos) toks ss -> Forall (fun s => ~ ends_input s) ss -> FactoryModel.token_type last = -1 ->
  t_channel (lexed toks last 0) = chan -> read_types (lexed toks last) (fun c => c = chan) 0 (types_on chan ss).
Proof.
  intros F NE EL Op. destruct F as [|t s toks ss X F]; [apply read_eof; exact EL|].
  inversion NE as [|? ? NX NE']; subst. pose proof X as (ty & c & E & T & C & _). unfold types_on. cbn [flat_map]. unfold ends_input in NX. rewrite E in *.
  cbn [lexed] in *. change (t_channel (lexed (t :: toks) last 0)) with (FactoryModel.channel t). rewrite C, Z.eqb_refl. cbn [app]. subst ty.
  change (FactoryModel.token_type t) with (t_type (lexed (t :: toks) last 0)). apply read_token; [exact NX|].
  exact (visible_lexed raw cs pos c (t :: toks) last (s :: ss) ltac:(constructor; eauto) NE EL 1 ltac:(cbn; lia)).
Qed.
Lemma types_made chan ss : types_on chan (filter made ss) = types_on chan ss.
Proof.
  induction ss as [|s ss IH]; [reflexivity|]. cbn [filter]. unfold made at 1. unfold types_on in *. destruct (s_ending s) eqn:E; cbn [flat_map]; rewrite ?E; cbn [app]; [f_equal|..]; exact IH.
Qed.
Lemma first_eof (ts : list FactoryModel.token) : (exists t, In t ts /\ FactoryModel.token_type t = -1) ->
  exists toks last rest, ts = toks ++ last :: rest /\ FactoryModel.token_type last = -1 /\ Forall (fun t => FactoryModel.token_type t <> -1) toks.
Proof.
  induction ts as [|t ts IH]; intros (x & I & E); [contradiction|]. destruct (Z.eq_dec (FactoryModel.token_type t) (-1)) as [Q|Q].
  - exists [], t, ts. auto.
  - destruct I as [<-|I]; [contradiction|]. destruct IH as (toks & last & rest & -> & A & B); [eauto|]. exists (t :: toks), last, rest. auto.
Qed.
