(** Properties of lexing with non-greedy rules: C106. *)
From Coq Require Import ZArith List Bool Lia.
From Coq Require Import ZifyBool ZifyNat.
From Verif Require Import Outcome CharStreamModel CharStreamSpec PredContextModel SemContextModel
  ConfigSetModel DfaModel AtnModel AtnSpec Ll1Spec LexerModel LexerSpec LexerProofs LexMatchSpec
  LexMatchProofs LexCacheProofs LexTextProofs LexMatchProps LexTotalProps MunchSpec MunchProofs MunchProps LazySpec LazyProofs LazyProps LazyLexSpec LazySameProofs.
From Verif Require LexerProps FactoryModel.
Import ListNotations.
Local Open Scope Z_scope.

(** The lexers of C98, but with any greedy and non-greedy decisions *)
Definition lazy_reference_class D raw cs pos U a (action : Z -> Z -> lexer U -> lexer U) sempred (before_emit : lexer U -> lexer U) ctx_hash actions_hash configs_hash : Prop :=
  lazy_class D raw cs pos U a sempred ctx_hash actions_hash configs_hash /\
  no_empty_match a /\ one_action_list a /\ no_custom_actions a /\ modes_exist a /\ proper_types a /\
  (forall r i l, lx_input U (action r i l) = lx_input U l) /\ (forall l, before_emit l = l).

Lemma lazy_matches a mode rest n rule : lazy_munch a mode rest n rule -> (n <= length rest)%nat /\ rule_matches a mode rule (firstn n rest).
Proof. intros ((L & M & _) & _). auto. Qed.
Lemma lazy_picked D U a action sempred ctx_hash actions_hash configs_hash raw cs pos : text_source D raw cs pos -> Forall ordinary_char cs ->
  lexer_formed a -> rules_apart a -> no_collisions D U a sempred ctx_hash actions_hash configs_hash ->
  forall k l mode fuel s r l' s', lx_input U l = IStream raw (pos k) -> (k <= length cs)%nat -> sim_good D U a sempred ctx_hash actions_hash configs_hash s ->
    item (mode_to_start_state a) mode <> None ->
    match_token D U a action sempred ctx_hash actions_hash configs_hash fuel mode l s = Val (r, l', s') -> cache_fits s' ->
    picked D U a action cs (lazy_munch a) k l mode r l'.
Proof.
  intros TS OC FM RA NC k l mode fuel s r l' s' Hi Lk G Mo E F.
  destruct (match_lazy D U a sempred ctx_hash actions_hash configs_hash FM RA NC raw cs pos TS k l Hi Lk mode OC action fuel s r l' s' G Mo E F)
    as [(n & kk & xs & w & ex & ln & ty & B1 & B2 & B)|B]; [left|right; exact B].
  exists n, kk, xs, w, ex, ln, ty. split; [split; assumption | exact B].
Qed.
Lemma scans_more (p q : Z -> list Z -> nat -> nat -> Prop) a cs : (forall mode rest n rule, p mode rest n rule -> q mode rest n rule) ->
  forall from k c m s m', scans p a cs from k c m s m' -> scans q a cs from k c m s m'.
Proof.
  intros I from. assert (X : forall mode rest n ty xs, match_found p a mode rest n ty xs -> match_found q a mode rest n ty xs).
  { intros mode rest n ty xs (r & P & Q). exists r. auto. }
  induction 1; [eapply scan_declared | eapply scan_type | eapply scan_skip | eapply scan_more | apply scan_end | apply scan_error]; eauto.
Qed.
Lemma produces_more (p q : Z -> list Z -> nat -> nat -> Prop) a cs : (forall mode rest n rule, p mode rest n rule -> q mode rest n rule) ->
  forall d k m n ss, produces p a cs d k m n ss -> produces q a cs d k m n ss.
Proof.
  intros I d k m n ss P. induction P as [d k m|k m n ss P IH|k m ty c from to m' n ss S P IH|k m from to e m' n ss S E P IH].
  - constructor.
  - constructor. exact IH.
  - eapply produces_token; [eapply scans_more; eauto | exact IH].
  - eapply produces_other; [eapply scans_more; eauto | exact E | exact IH].
Qed.

(** ** C106 *)
(** The first [n] tokens are such as the reference allows for the text: the types, channels, places and
    texts, with one report for each stretch that matches nothing. *)
Theorem C106_tokens : forall D raw cs pos U a action sempred before_emit ctx_hash actions_hash configs_hash s u fuel n ts l' s',
  lazy_reference_class D raw cs pos U a action sempred before_emit ctx_hash actions_hash configs_hash ->
  warmed D U a action sempred ctx_hash actions_hash configs_hash s -> cache_fits s' ->
  LexerModel.next_tokens D U a action sempred before_emit ctx_hash actions_hash configs_hash fuel n (new_base_lexer U (stream_new raw) u) s = Val (ts, l', s') ->
  exists ss, lexes_lazily a cs n ss /\ Forall2 (shows raw cs pos) ts (filter made ss) /\ Forall2 (reports raw cs pos) (lx_errors U l') (filter reported ss).
Proof.
  intros D raw cs pos U a action sempred be ch ah sh s u fuel n ts l' s' ((TS & OC & FM & RA & NC) & NE & One & NCA & ME & PT & Ka & Be) W F E.
  assert (G : sim_good D U a sempred ch ah sh s) by (eapply warmed_good; eauto).
  destruct (tokens_scan D U a action sempred be ch ah sh raw cs pos TS OC FM RA NC NE One NCA ME PT Ka Be (lazy_munch a)
     (lazy_matches a) (lazy_picked D U a action sempred ch ah sh raw cs pos TS OC FM RA NC) _ _ _ _ _ _ _ _ _ _ _
     (resting_start D U a raw cs pos TS ME u) G F E) as (ss & new & P & S & Er & R).
  cbn [app] in Er. rewrite <- Er in R. eauto.
Qed.
Print Assumptions C106_tokens.

(** If every rule is greedy or of the form opening, as few characters as possible, closing, the
    reference gives one answer. *)
Theorem C106_unique : forall a cs n ss ss', greedy_or_delimited a -> one_action_list a -> lexes_lazily a cs n ss -> lexes_lazily a cs n ss' -> ss = ss'.
Proof.
  intros a cs n ss ss' GD One P P'. eapply produces_unique; [apply lazy_matches | apply lazy_one, GD | exact One | exact P | exact P'].
Qed.
Print Assumptions C106_unique.

(** If all decisions are greedy, it is the answer of C98. *)
Lemma greedy_munch a : greedy a -> forall mode rest n rule, lazy_munch a mode rest n rule <-> maximal_munch a mode rest n rule.
Proof.
  intros GR mode rest m rule. assert (GA : forall k, greedy_rule a mode k) by (intros k; apply greedy_never; exact GR). split.
  - intros ((A1 & A2 & A3 & A4) & _). split.
    + split; [exact A1|]. split; [eauto|]. intros n' k L M. destruct (A3 n' k ltac:(lia) M) as (X & _). apply X, GA.
    + split; [exact A2|]. intros k L M. destruct (A4 k L M) as (X & _). apply X, GA.
  - intros ((A1 & _ & A3) & (A2 & A4)). split.
    + split; [exact A1|]. split; [exact A2|]. split; [intros n' k L M; exfalso; eapply A3; eauto; lia|]. intros k L M. exfalso. eapply A4; eauto.
    + intros (q & o & e & s & x & nx & y & ny & close & n & body & t & _ & _ & _ & Es & N & _). exfalso. specialize (GR e s Es). unfold nongreedy_state in N.
      destruct (st_type s); try contradiction. congruence.
Qed.
Lemma greedy_or a : greedy a -> greedy_or_delimited a.
Proof. intros GR mode k. left. apply greedy_never, GR. Qed.
Theorem C106_greedy : forall a cs n ss, greedy a -> (lexes_lazily a cs n ss <-> lexes_to a cs n ss).
Proof. intros a cs n ss GR. split; apply produces_more; intros mode rest m rule; apply greedy_munch, GR. Qed.
Print Assumptions C106_greedy.

(** If, besides, no infinite sequence of steps consumes nothing, the tokens are there for every [n],
    with every number of steps that is large enough: whatever the reference gives, the lexer gives. *)
Theorem C106_all_tokens : forall D raw cs pos U a action sempred before_emit ctx_hash actions_hash configs_hash s u n,
  lazy_reference_class D raw cs pos U a action sempred before_emit ctx_hash actions_hash configs_hash -> greedy_or_delimited a ->
  progressing D raw cs pos U a action sempred before_emit ctx_hash actions_hash configs_hash ->
  warmed D U a action sempred ctx_hash actions_hash configs_hash s ->
  exists ts l' s', length ts = n /\
    (exists enough, forall fuel, (enough <= fuel)%nat ->
       LexerModel.next_tokens D U a action sempred before_emit ctx_hash actions_hash configs_hash fuel n (new_base_lexer U (stream_new raw) u) s = Val (ts, l', s')) /\
    (cache_fits s' -> (exists ss, lexes_lazily a cs n ss) /\
       forall ss, lexes_lazily a cs n ss -> Forall2 (shows raw cs pos) ts (filter made ss) /\ Forall2 (reports raw cs pos) (lx_errors U l') (filter reported ss)).
Proof.
  intros D raw cs pos U a action sempred be ch ah sh s u n RC GD P W.
  destruct (C37_ends_with_eof D raw cs pos U a action sempred be ch ah sh s u n P W) as (ts & l' & s' & Ln & (enough & E) & _).
  exists ts, l', s'. split; [exact Ln|]. split; [exists enough; exact E|]. intros F.
  destruct (C106_tokens _ _ _ _ _ _ _ _ _ _ _ _ _ _ _ _ _ _ _ RC W F (E enough (le_n _))) as (ss & L & S & R).
  split; [eauto|]. intros ss' L'. rewrite (C106_unique _ _ _ _ _ GD (proj1 (proj2 (proj2 RC))) L' L). auto.
Qed.
Print Assumptions C106_all_tokens.

(** ** The grammar of C105:  CMT : '/*' .*? '*' '/' ;  DIV : '/' ;  ID : [a-z]+ ; *)
Definition cm_rank (i : Z) : nat := nth (Z.to_nat i) [2; 1; 0; 1; 0; 1; 0; 0; 0; 2; 1; 0; 4; 3; 1; 0; 0; 1; 0; 1; 0; 1]%nat 0%nat.
Definition cm_fresh : list Z := [1; 7; 3; 20; 5; 18].
Lemma cm_quiet i ys r : quiet_step cm_atn (i, []) ys r ->
  snd r = [] /\ (cm_rank (fst r) < cm_rank i)%nat /\ (In i cm_fresh -> In (fst r) cm_fresh) /\
  (In i [3; 20; 21; 4] -> In (fst r) [3; 20; 21; 4]) /\ (In i [5; 18; 19; 6] -> In (fst r) [5; 18; 19; 6]).
Proof.
  intros S.
  inversion S as [i0 st0 s g n E N I|i0 st0 s g f rr p E N I|i0 f st0 s E N|i0 s g d rr k p x E N I X|i0 f st0 s g d rr k p E N I]; subst; clear S;
  each_state E; try (exfalso; apply N; reflexivity); try discriminate N;
  cbn in I; repeat (destruct I as [I|I]; [first [discriminate I | injection I; intros; subst; clear I]|]); try contradiction.
  all: split; [reflexivity|]; split; [vm_compute; lia|].
  all: repeat split; intros F; cbn in F |- *; try tauto.
  all: exfalso; repeat (destruct F as [F|F]; [discriminate F|]); contradiction.
Qed.
Lemma cm_char i c r : char_step cm_atn (i, []) c r ->
  snd r = [] /\ (In i [3; 20; 21; 4] -> In (fst r) [3; 20; 21; 4]) /\ (In i [5; 18; 19; 6] -> In (fst r) [5; 18; 19; 6]).
Proof.
  intros S. inversion S as [i0 st0 s t c0 E N I C]; subst; clear S. each_state E; try (exfalso; apply N; reflexivity);
  cbn in I; repeat (destruct I as [<-|I]; [first [contradiction | idtac]|]); try contradiction; cbn in C; try contradiction.
  all: split; [reflexivity|]; repeat split; intros F; cbn in F |- *; try tauto.
  all: exfalso; repeat (destruct F as [F|F]; [discriminate F|]); contradiction.
Qed.
Lemma cm_run q w xs p : run cm_atn (q, []) w xs p -> snd p = [] /\ (w = [] -> In q cm_fresh -> In (fst p) cm_fresh) /\
  (In q [3; 20; 21; 4] -> In (fst p) [3; 20; 21; 4]) /\ (In q [5; 18; 19; 6] -> In (fst p) [5; 18; 19; 6]).
Proof.
  induction 1 as [|w xs [i l] ys r R IH Q|w xs [i l] c r R IH C]; [cbn; tauto| |]; destruct IH as (E & I1 & I2 & I3); cbn [fst snd] in *; subst l.
  - destruct (cm_quiet _ _ _ Q) as (E & _ & A1 & A2 & A3). auto 10.
  - destruct (cm_char _ _ _ C) as (E & A2 & A3). split; [exact E|]. split; [|auto]. intros X. destruct w; discriminate X.
Qed.
Lemma cm_begins m k q : rule_begins cm_atn m k q -> k = 0%nat /\ q = 1 /\ m = 0 \/ k = 1%nat /\ q = 3 \/ k = 2%nat /\ q = 5.
Proof.
  intros (i & s & t & Em & Es & Et & ->). unfold item in Em. destruct (Z.ltb_spec m 0); [discriminate|]. destruct (Z.to_nat m) as [|x] eqn:Ex.
  2: { destruct x; discriminate Em. }
  injection Em as <-. injection Es as <-. destruct k as [|[|[|k]]]; [| | |destruct k; discriminate Et]; injection Et as <-; cbn; [left|right; left|right; right]; repeat split; lia.
Qed.
Lemma cm_or : greedy_or_delimited cm_atn.
Proof.
  intros m k.
  assert (X : (k = 0%nat /\ m = 0) \/ ~ (k = 0%nat /\ m = 0)) by lia. destruct X as [(-> & ->)|X]; [right; exact cm_delimited|]. left.
  intros q w xs p B R (s & E & N). destruct (cm_run _ _ _ _ R) as (_ & _ & I1 & I2).
  destruct (cm_begins _ _ _ B) as [(? & ? & ?)|[(-> & ->)|(-> & ->)]]; [tauto| |].
  - specialize (I1 ltac:(left; reflexivity)). repeat (destruct I1 as [I1|I1]; [rewrite <- I1 in E; injection E as <-; cbn in N; (contradiction || discriminate)|]). contradiction.
  - specialize (I2 ltac:(left; reflexivity)). repeat (destruct I2 as [I3|I2]; [rewrite <- I3 in E; injection E as <-; cbn in N; (contradiction || discriminate)|]). contradiction.
Qed.
Lemma cm_no_empty : no_empty_match cm_atn.
Proof.
  intros m k (xs & q & i & s & B & R & E & S). destruct (cm_run _ _ _ _ R) as (_ & F & _). cbn [fst] in F.
  assert (Iq : In q cm_fresh) by (destruct (cm_begins _ _ _ B) as [(_ & -> & _)|[(_ & ->)|(_ & ->)]]; cbn; tauto). specialize (F eq_refl Iq). cbn in F.
  repeat (destruct F as [<-|F]; [injection E as <-; discriminate S|]). contradiction.
Qed.
Lemma cm_one_action_list : one_action_list cm_atn.
Proof.
  intros m k w w' xs xs' (q & i & s & B & R & _) (q' & i' & s' & B' & R' & _).
  assert (N : forall b v ys p, run cm_atn b v ys p -> ys = []).
  { intros b v ys p X. destruct ys as [|y ys]; [reflexivity|]. destruct (run_actions _ _ _ _ _ X y (or_introl eq_refl)). }
  rewrite (N _ _ _ _ R), (N _ _ _ _ R'). reflexivity.
Qed.
Lemma cm_settles : settles cm_atn.
Proof.
  assert (G : forall n i, (cm_rank i < n)%nat -> Acc (fun q p => exists xs, quiet_step cm_atn p xs q) (i, [])).
  { induction n as [|n IH]; intros i L; [lia|]. constructor. intros [j st] (xs & S). destruct (cm_quiet _ _ _ S) as (S1 & S3 & _).
    cbn [fst snd] in *. subst st. apply IH. lia. }
  intros i _. apply (G (Datatypes.S (cm_rank i))). lia.
Qed.
Notation cm_tokens fuel n s :=
  (LexerModel.next_tokens slice_data unit cm_atn LexerProps.no_action LexerProps.no_sempred (fun l => l) (fun _ => 0) (fun _ => 0) ideal_hash
     fuel n (new_base_lexer unit (stream_new cm_text) tt) s).
(** The hypotheses are met.  The tokens of the text: the comment up to the first end of a comment; b; an
    asterisk is reported; a division sign; the end of the input, twice.  The reference gives nothing else. *)
Example C106_nonvacuous :
  lazy_reference_class slice_data cm_text cm_text Z.of_nat unit cm_atn LexerProps.no_action LexerProps.no_sempred (fun l => l) (fun _ => 0) (fun _ => 0) ideal_hash /\
  progressing slice_data cm_text cm_text Z.of_nat unit cm_atn LexerProps.no_action LexerProps.no_sempred (fun l => l) (fun _ => 0) (fun _ => 0) ideal_hash /\
  greedy_or_delimited cm_atn /\
  warmed slice_data unit cm_atn LexerProps.no_action LexerProps.no_sempred (fun _ => 0) (fun _ => 0) ideal_hash (new_sim cm_atn) /\
  match cm_tokens 60%nat 5%nat (new_sim cm_atn) with
  | Val (ts, l, s) => cache_fits s /\ length ts = 5%nat /\ lx_errors unit l = [(1, 6, [42])]
  | _ => False
  end /\
  (exists ss, lexes_lazily cm_atn cm_text 5 ss) /\
  forall ss, lexes_lazily cm_atn cm_text 5 ss -> length (filter reported ss) = 1%nat /\
    filter made ss = [Stretch 0 5 (Made 1 0); Stretch 5 6 (Made 3 0); Stretch 7 8 (Made 2 0); Stretch 8 8 (Made (-1) 0); Stretch 8 8 (Made (-1) 0)].
Proof.
  assert (RC : lazy_reference_class slice_data cm_text cm_text Z.of_nat unit cm_atn LexerProps.no_action LexerProps.no_sempred (fun l => l) (fun _ => 0) (fun _ => 0) ideal_hash).
  { split; [apply cm_class|]. split; [apply cm_no_empty|]. split; [apply cm_one_action_list|]. split; [intros x []|].
    split; [split; [discriminate | intros x []]|]. split; [|split; intros; reflexivity]. split; [intros t []|].
    intros t I X. cbn in I, X. repeat (destruct I as [<-|I]; [repeat (destruct X as [X|X]; [discriminate X|]); contradiction|]). contradiction. }
  split; [exact RC|]. split.
  { split; [constructor; repeat constructor; discriminate|]. split; [apply cm_formed|]. split; [apply cm_apart|].
    split; [apply cm_settles|]. split; [apply cm_no_empty|]. split; [apply ideal_no_collisions, cm_formed|].
    split; [|intros r i l; reflexivity]. repeat split. }
  split; [apply cm_or|]. split; [constructor|].
  destruct (cm_tokens 60%nat 5%nat (new_sim cm_atn)) as [[[ts l] s]| |] eqn:E; [|vm_compute in E; discriminate ..].
  assert (F : cache_fits s /\ length ts = 5%nat /\ lx_errors unit l = [(1, 6, [42])] /\
    map (fun t => (FactoryModel.token_type t, FactoryModel.channel t, FactoryModel.start t, FactoryModel.stop t)) ts =
      [(1, 0, 0, 4); (3, 0, 5, 5); (2, 0, 7, 7); (-1, 0, 8, 7); (-1, 0, 8, 7)]).
  { vm_compute in E. injection E as <- <- <-. split; [intros d [<-|[]]; vm_compute; reflexivity|]. repeat split. }
  destruct F as (F1 & F2 & F3 & F4). split; [auto|].
  destruct (C106_tokens _ _ _ _ _ _ _ _ _ _ _ _ _ _ _ _ _ _ _ RC (warmed_new _ _ _ _ _ _ _ _) F1 E) as (ss & L & S & R).
  split; [eauto|]. intros ss' L'. rewrite (C106_unique _ _ _ _ _ cm_or cm_one_action_list L' L). clear ss' L'.
  split; [rewrite F3 in R; inversion R as [|? ? ? ? _ R0]; inversion R0; reflexivity|].
  rewrite (shown _ _ _ _ S). clear - F4.
  do 6 (destruct ts as [|[] ts]; [try discriminate F4|]); [|discriminate F4]. cbn in F4 |- *. injection F4; intros; subst. reflexivity.
Qed.
