(** Properties of lexer matching: C33, C34, C35. *)
From Coq Require Import ZArith List Bool Lia.
From Coq Require Import ZifyBool ZifyNat.
From Verif Require Import Outcome CharStreamModel CharStreamSpec CharStreamProofs PredContextModel SemContextModel
  ConfigSetModel DfaModel DfaProofs AtnModel AtnSpec Ll1Spec LexerModel LexerSpec LexerProofs LexMatchSpec
  LexMatchProofs LexCacheProofs LexTextProofs.
From Verif Require LexerProps.
Import ListNotations.
Local Open Scope Z_scope.

(** ** The hypotheses on the hash can be met: a hash without collisions, for every ATN. *)
Definition to_nat' (z : Z) : Z := if z <? 0 then -2 * z - 1 else 2 * z.
Fixpoint ideal (l : list Z) : Z := match l with [] => 0 | x :: l => 2 ^ to_nat' x * (2 * ideal l + 1) end.
Fixpoint stack_of (x : pctx) : list Z :=
  match x with Singleton r (Some p) => r :: stack_of p | _ => [] end.
Definition flat (c : config hashed) : list Z :=
  let s := match c_ctx c with Some x => stack_of x | None => [] end in
  [c_state c; c_alt c; if h_passed (c_type c) then 1 else 0] ++ (match h_exec (c_type c) with None => [0] | Some h => [1; h] end) ++
  Z.of_nat (length s) :: s.
Definition ideal_hash (cs : list (config hashed)) : Z := ideal (concat (map flat cs)).

Lemma to_nat'_inj x y : to_nat' x = to_nat' y -> x = y.
Proof. unfold to_nat'. destruct (Z.ltb_spec x 0), (Z.ltb_spec y 0); lia. Qed.
Lemma to_nat'_pos x : 0 <= to_nat' x.
Proof. unfold to_nat'. destruct (Z.ltb_spec x 0); lia. Qed.
Lemma odd_part a b x y : 0 <= a -> 0 <= b -> 2 ^ a * (2 * x + 1) = 2 ^ b * (2 * y + 1) -> a = b /\ x = y.
Proof.
  assert (G : forall a b x y, 0 <= a < b -> 2 ^ a * (2 * x + 1) = 2 ^ b * (2 * y + 1) -> False).
  { intros a' b' x' y' L E. replace b' with (a' + (1 + (b' - a' - 1))) in E by lia. rewrite Z.pow_add_r, <- Z.mul_assoc in E by lia.
    apply Z.mul_reg_l in E; [|apply Z.pow_nonzero; lia]. rewrite Z.pow_add_r in E by lia. change (2 ^ 1) with 2 in E. lia. }
  intros A B E. destruct (Z.lt_trichotomy a b) as [L|[->|L]].
  - exfalso. eapply G; [|exact E]. lia.
  - split; [reflexivity|]. apply Z.mul_reg_l in E; [lia | apply Z.pow_nonzero; lia].
  - exfalso. eapply G; [|symmetry; exact E]. lia.
Qed.
Lemma ideal_zero l : ideal l = 0 -> l = [].
Proof.
  destruct l as [|x l]; [reflexivity|]. cbn [ideal]. intros E. exfalso. apply Z.mul_eq_0 in E. destruct E as [E|E].
  - eapply Z.pow_nonzero; [| |exact E]; [lia | apply to_nat'_pos].
  - lia.
Qed.
Lemma ideal_inj l : forall l', ideal l = ideal l' -> l = l'.
Proof.
  induction l as [|x l IH]; intros l' E; [symmetry; apply ideal_zero; auto|].
  destruct l' as [|y l']; [apply ideal_zero; exact E|]. cbn [ideal] in E.
  apply odd_part in E; try apply to_nat'_pos. destruct E as (E1 & E2). apply to_nat'_inj in E1. f_equal; auto.
Qed.
Lemma same_prefix {A} (x y r r' : list A) : length x = length y -> x ++ r = y ++ r' -> x = y /\ r = r'.
Proof.
  revert y. induction x as [|a x IH]; intros [|b y] L E; cbn in *; try discriminate; [auto|]. inversion E; subst.
  destruct (IH y ltac:(lia) H1). subst. auto.
Qed.
Lemma stack_ctx st : stack_of (ctx_of st) = st.
Proof. induction st as [|f st IH]; cbn; [reflexivity|]. rewrite IH. reflexivity. Qed.
Lemma flat_inj c d r r' : (exists p, cfg c p) -> (exists p, cfg d p) -> flat (hash_view c) ++ r = flat (hash_view d) ++ r' -> hash_view c = hash_view d /\ r = r'.
Proof.
  intros ((i & st) & C1 & C2 & C3 & _) ((j & st') & D1 & D2 & D3 & _) E. cbn [fst snd] in *. unfold flat, hash_view in *.
  cbn [c_state c_alt c_ctx c_sem c_type h_exec h_passed] in *. rewrite C1, C2, C3, D1, D2, D3 in *. rewrite !stack_ctx in E.
  cbn [app] in E. injection E as E1 E2 E3 E4.
  assert (E5 : lt_passed (c_type c) = lt_passed (c_type d)) by (destruct (lt_passed (c_type c)), (lt_passed (c_type d)); auto; discriminate).
  rewrite <- !app_assoc in E4.
  assert (E6 : option_map ex_hash (lt_exec (c_type c)) = option_map ex_hash (lt_exec (c_type d)) /\
    (Z.of_nat (length st) :: st) ++ r = (Z.of_nat (length st') :: st') ++ r').
  { destruct (lt_exec (c_type c)), (lt_exec (c_type d)); cbn in E4 |- *; inversion E4; subst; split; congruence. }
  destruct E6 as (E6 & E7). cbn in E7. inversion E7 as [[E8 E9]]. apply same_prefix in E9; [|lia]. destruct E9 as (-> & ->).
  rewrite E1, E2, E5, E6. auto.
Qed.
Lemma ideal_hash_inj x : forall y, posed x -> posed y -> ideal_hash (map hash_view x) = ideal_hash (map hash_view y) -> map hash_view x = map hash_view y.
Proof.
  intros y Px Py E. apply ideal_inj in E. revert y Py E. induction Px as [|c x Pc Px IH]; intros y Py E.
  - destruct y as [|d y]; [reflexivity | discriminate].
  - destruct y as [|d y]; [discriminate|]. inversion Py; subst. cbn [map concat] in E. apply flat_inj in E; auto.
    destruct E as (E1 & E2). cbn [map]. f_equal; auto.
Qed.
Lemma ideal_no_collisions D U a sempred ctx_hash actions_hash : lexer_formed a -> no_collisions D U a sempred ctx_hash actions_hash ideal_hash.
Proof.
  intros FM x y Bx By E.
  assert (G : forall z, built D U a sempred ctx_hash actions_hash z -> exists m, list_good D U a sempred ctx_hash actions_hash m z).
  { clear - FM. induction 1 as [fuel m ms s l cs l' Em Es H|fuel start cl t l cs l' B IH H].
    - exists m. eapply start_good; eauto.
    - destruct IH as (m & G). exists m. eapply reach_good; eauto. }
  destruct (G x Bx) as (m & Gx), (G y By) as (m' & Gy). apply ideal_hash_inj; auto; eapply good_posed; eauto.
Qed.

Section Matching.
  Variable D : input_data.
  Variables raw cs : list Z.
  Variable pos : nat -> Z.
  Variable U : Type.
  Variable a : atn.
  Variable action : Z -> Z -> lexer U -> lexer U.
  Variable sempred : Z -> Z -> lexer U -> bool * lexer U.
  Variable ctx_hash : pctx -> Z.
  Variable actions_hash : list lexer_action -> Z.
  Variable configs_hash : list (config hashed) -> Z.
  Notation matching := (match_token D U a action sempred ctx_hash actions_hash configs_hash).
  Notation warmed := (warmed D U a action sempred ctx_hash actions_hash configs_hash).
  (** a grammar of the class, over a text *)
  Definition lexer_class : Prop :=
    text_source D raw cs pos /\ Forall ordinary_char cs /\ lexer_formed a /\ rules_apart a /\ greedy a /\
    no_collisions D U a sempred ctx_hash actions_hash configs_hash.
  (** standing at character [k] *)
  Definition standing (k : nat) (l : lexer U) : Prop := (k <= length cs)%nat /\ lx_input U l = IStream raw (pos k).

  Lemma match_ends k mode fuel l s r l' s' : lexer_class -> warmed s -> standing k l -> item (mode_to_start_state a) mode <> None ->
    matching fuel mode l s = Val (r, l', s') -> cache_fits s' ->
    ends D U a cs k l mode action r l'.
  Proof.
    intros (TS & OC & FM & RA & GR & NC) W (Lk & Here) Mo H F.
    eapply (match_text D U a sempred ctx_hash actions_hash configs_hash FM RA NC raw cs pos TS); eauto.
    eapply warmed_good; eauto.
  Qed.
End Matching.
Lemma ends_index D raw cs pos U a (action : Z -> Z -> lexer U -> lexer U) k mode l r l' : text_source D raw cs pos -> standing raw cs pos U k l -> (forall r i l, lx_input U (action r i l) = lx_input U l) ->
  ends D U a cs k l mode action r l' ->
  (exists n kk ty, longest_match a mode (skipn k cs) n /\ first_rule a mode (firstn n (skipn k cs)) kk /\ rule_has_type a mode kk ty /\
     r = inl ty /\ lx_input U l' = IStream raw (pos (k + n)%nat%nat)) \/
  (nothing_matches a mode (skipn k cs) /\ r = if Nat.eqb (length (skipn k cs)) 0 then inl (-1) else inr (LexerNoAltError (pos k))).
Proof.
  intros TS (Lk & Here) Ka [(n & kk & xs & w' & ex & ln & ty & L & Fi & Ty & _ & _ & E & -> & ->)|(N & j & Lj & E & _ & _ & ->)].
  - left. exists n, kk, ty. do 3 (split; [assumption|]). split; [reflexivity|].
    assert (Ln : (k + n <= length cs)%nat) by (destruct L as (L & _); rewrite skipn_length in L; lia).
    rewrite <- (eat_input D U raw cs pos TS k l n ln Here Ln E). destruct ex; [apply execute_input; exact Ka | reflexivity].
  - right. split; [exact N|]. rewrite Here. reflexivity.
Qed.

(** ** C33 *)
(** A match takes the longest prefix that some rule of the mode matches and stops right behind it; it
    fails only if no prefix is matched.  At the end of the input it reports EOF. *)
Theorem C33_longest_match : forall D raw cs pos U a action sempred ctx_hash actions_hash configs_hash k mode fuel l s r l' s',
  lexer_class D raw cs pos U a sempred ctx_hash actions_hash configs_hash ->
  (forall r i l, lx_input U (action r i l) = lx_input U l) ->
  warmed D U a action sempred ctx_hash actions_hash configs_hash s -> cache_fits s' ->
  standing raw cs pos U k l -> item (mode_to_start_state a) mode <> None ->
  match_token D U a action sempred ctx_hash actions_hash configs_hash fuel mode l s = Val (r, l', s') ->
  let rest := skipn k cs in
  match r with
  | inl ty => (exists n, longest_match a mode rest n /\ lx_input U l' = IStream raw (pos (k + n)%nat)) \/
              (ty = -1 /\ rest = [] /\ nothing_matches a mode rest)
  | inr e => e = LexerNoAltError (pos k) /\ nothing_matches a mode rest
  end.
Proof.
  intros D raw cs pos U a action sempred ch ah sh k mode fuel l s r l' s' LC Ka W F St Mo H rest.
  assert (E := match_ends _ _ _ _ _ _ _ _ _ _ _ _ _ _ _ _ _ _ _ LC W St Mo H F).
  destruct (ends_index D raw cs pos U a action k mode l r l' (proj1 LC) St Ka E) as [(n & kk & ty & L & _ & _ & -> & I)|(N & ->)].
  - left. eauto.
  - fold rest in N. destruct (Nat.eqb_spec (length (skipn k cs)) 0) as [Z0|Z0].
    + right. split; [reflexivity|]. split; [apply length_zero_iff_nil, Z0 | exact N].
    + split; [reflexivity | exact N].
Qed.
Print Assumptions C33_longest_match.

(** ** C34 *)
(** The type is that of the first rule, in the order of declaration, that matches this longest prefix. *)
Theorem C34_first_rule : forall D raw cs pos U a action sempred ctx_hash actions_hash configs_hash k mode fuel l s r l' s' n,
  lexer_class D raw cs pos U a sempred ctx_hash actions_hash configs_hash ->
  (forall r i l, lx_input U (action r i l) = lx_input U l) ->
  warmed D U a action sempred ctx_hash actions_hash configs_hash s -> cache_fits s' ->
  standing raw cs pos U k l -> item (mode_to_start_state a) mode <> None ->
  match_token D U a action sempred ctx_hash actions_hash configs_hash fuel mode l s = Val (r, l', s') ->
  longest_match a mode (skipn k cs) n ->
  exists rule ty, r = inl ty /\ first_rule a mode (firstn n (skipn k cs)) rule /\ rule_has_type a mode rule ty.
Proof.
  intros D raw cs pos U a action sempred ch ah sh k mode fuel l s r l' s' n LC Ka W F St Mo H L.
  assert (E := match_ends _ _ _ _ _ _ _ _ _ _ _ _ _ _ _ _ _ _ _ LC W St Mo H F).
  destruct L as (L1 & (r0 & L2) & L3).
  destruct (ends_index D raw cs pos U a action k mode l r l' (proj1 LC) St Ka E) as [(n' & kk & ty & (L1' & (r1 & L2') & L3') & Fi & Ty & -> & I)|(N & ->)].
  - assert (n' = n). { destruct (lt_eq_lt_dec n n') as [[X|X]|X]; [|auto|]; exfalso; [eapply L3 | eapply L3']; eauto. }
    subst n'. eauto.
  - exfalso. exact (N n r0 L1 L2).
Qed.
Print Assumptions C34_first_rule.

(** ** C35 *)
Lemma first_unique a m w k k' : first_rule a m w k -> first_rule a m w k' -> k = k'.
Proof. intros (A & B) (A' & B'). destruct (lt_eq_lt_dec k k') as [[X|X]|X]; [|auto|]; exfalso; [eapply B' | eapply B]; eauto. Qed.
Lemma longest_unique a m w n n' : longest_match a m w n -> longest_match a m w n' -> n = n'.
Proof.
  intros (A & (x & B) & C) (A' & (x' & B') & C'). destruct (lt_eq_lt_dec n n') as [[X|X]|X]; [|auto|]; exfalso; [eapply C | eapply C']; eauto.
Qed.
Lemma type_unique a m k t t' : rule_has_type a m k t -> rule_has_type a m k t' -> t = t'.
Proof. intros (q & B & E) (q' & B' & E'). rewrite (begins_det a _ _ _ _ B B') in E. congruence. Qed.

(** Whatever the cache has seen before, the result and the place where the match ends are the same. *)
Theorem C35_same_result_partial : forall D raw cs pos U a action sempred ctx_hash actions_hash configs_hash k mode l
    before_emit fuel1 s1 r1 l1 s1' fuel2 s2 r2 l2 s2',
  lexer_class D raw cs pos U a sempred ctx_hash actions_hash configs_hash ->
  place_keeping action sempred before_emit ->
  standing raw cs pos U k l -> item (mode_to_start_state a) mode <> None ->
  warmed D U a action sempred ctx_hash actions_hash configs_hash s1 -> cache_fits s1' ->
  match_token D U a action sempred ctx_hash actions_hash configs_hash fuel1 mode l s1 = Val (r1, l1, s1') ->
  warmed D U a action sempred ctx_hash actions_hash configs_hash s2 -> cache_fits s2' ->
  match_token D U a action sempred ctx_hash actions_hash configs_hash fuel2 mode l s2 = Val (r2, l2, s2') ->
  r1 = r2 /\ same_place l1 l2.
Proof.
  intros D raw cs pos U a action sempred ch ah sh k mode l be f1 s1 r1 l1 s1' f2 s2 r2 l2 s2' LC PK St Mo W1 F1 H1 W2 F2 H2.
  assert (E1 := match_ends _ _ _ _ _ _ _ _ _ _ _ _ _ _ _ _ _ _ _ LC W1 St Mo H1 F1).
  assert (E2 := match_ends _ _ _ _ _ _ _ _ _ _ _ _ _ _ _ _ _ _ _ LC W2 St Mo H2 F2).
  assert (X : forall ex (ln : lexer U) st, same_place ln (match ex with Some e => execute U action e ln st | None => ln end)).
  { intros [e|] ln st; [eapply execute_place; exact PK | apply place_refl]. }
  assert (Sym : forall x y : lexer U, same_place x y -> same_place y x) by (unfold same_place; intuition congruence).
  destruct E1 as [(n & kk & xs & w & ex & ln & ty & A1 & A2 & A3 & A4 & A5 & A6 & -> & ->)|(N & j & B1 & B2 & B3 & B4 & ->)],
           E2 as [(n' & kk' & xs' & w' & ex' & ln' & ty' & A1' & A2' & A3' & A4' & A5' & A6' & -> & ->)|(N' & j' & B1' & B2' & B3' & B4' & ->)].
  - rewrite <- (longest_unique _ _ _ _ _ A1 A1') in *. rewrite <- (first_unique _ _ _ _ _ A2 A2') in *. rewrite (type_unique _ _ _ _ _ A3 A3').
    assert (ln' = ln) by congruence. subst ln'. split; [reflexivity|]. eapply place_trans; [apply Sym, X | apply X].
  - exfalso. destruct A1 as (A & (x & B) & _). exact (N' n x A B).
  - exfalso. destruct A1' as (A & (x & B) & _). exact (N n' x A B).
  - split; [reflexivity|]. destruct (lt_eq_lt_dec j j') as [[L|L]|L].
    + exfalso. eapply B4; [lia|]. apply B3'. lia.
    + subst j'. assert (l1 = l2) by congruence. subst l2. apply place_refl.
    + exfalso. eapply B4'; [lia|]. apply B3. lia.
Qed.
Print Assumptions C35_same_result_partial.

Lemma execute_bare U action x : forall l : lexer U, execute_action U action x l = execute_action U action (bare x) l.
Proof. induction x; intros l; try reflexivity. cbn [bare execute_action]. apply IHx. Qed.

Lemma as_placed_bare U action start stop x : is_position_dependent (bare x) = false ->
  forall l : lexer U, as_placed action start stop l x = move_to (execute_action U action (bare x) l) stop.
Proof. intros N l. unfold as_placed. rewrite execute_bare, action_moved, move_move by exact N. reflexivity. Qed.
Lemma execute_same U action e e' l start : (forall r i l, lx_input U (action r i l) = lx_input U l) ->
  map bare e = map bare e' -> Forall (fun x => is_position_dependent (bare x) = false) e ->
  fold_left (as_placed action start (is_index (lx_input U l))) e l = fold_left (as_placed action start (is_index (lx_input U l))) e' l.
Proof.
  intros Ka. generalize (is_index (lx_input U l)) as stop. intros stop. revert l e'.
  induction e as [|x e IH]; intros l [|y e'] E F; cbn in E; try discriminate; [reflexivity|]. inversion E. inversion F; subst. cbn [fold_left].
  rewrite !as_placed_bare by congruence. rewrite H0. apply IH; auto.
Qed.
Lemma run_actions a p w xs q : run a p w xs q -> forall x, In x xs -> In x (lexer_actions a).
Proof.
  induction 1 as [|w xs q ys r R IH S|w xs q c r R IH S]; intros x I; [contradiction| |auto].
  apply in_app_or in I. destruct I as [I|I]; [auto|]. destruct S; try contradiction. destruct I as [<-|[]].
  unfold item in *. destruct (k <? 0); [discriminate|]. eapply nth_error_In; eauto.
Qed.

Lemma ends_same D cs U a (action : Z -> Z -> lexer U -> lexer U) k mode l r1 l1 r2 l2 :
  (forall r i l, lx_input U (action r i l) = lx_input U l) -> one_action_list a -> no_custom_actions a ->
  ends D U a cs k l mode action r1 l1 -> ends D U a cs k l mode action r2 l2 -> r1 = r2 /\ l1 = l2.
Proof.
  intros Ka One NCA E1 E2.
  destruct E1 as [(n & kk & xs & w & ex & ln & ty & A1 & A2 & A3 & A4 & A5 & A6 & -> & ->)|(N & j & B1 & B2 & B3 & B4 & ->)],
           E2 as [(n' & kk' & xs' & w' & ex' & ln' & ty' & A1' & A2' & A3' & A4' & A5' & A6' & -> & ->)|(N' & j' & B1' & B2' & B3' & B4' & ->)].
  - rewrite <- (longest_unique _ _ _ _ _ A1 A1') in *. rewrite <- (first_unique _ _ _ _ _ A2 A2') in *. rewrite (type_unique _ _ _ _ _ A3 A3').
    assert (ln' = ln) by congruence. subst ln'. split; [reflexivity|]. rewrite (One _ _ _ _ _ _ A4' A4) in A5'.
    assert (Xs : forall e, map bare e = map bare xs -> Forall (fun x => is_position_dependent (bare x) = false) e).
    { intros e E. destruct A4 as (q & i & st & _ & R & _). assert (Fx : Forall (fun x => is_position_dependent (bare x) = false) xs).
      { apply Forall_forall. intros x I. assert (I' := NCA x (run_actions _ _ _ _ _ R x I)). destruct x; auto; discriminate. }
      clear - E Fx. revert xs E Fx. induction e as [|x e IH]; intros [|y xs] E F; cbn in E; try discriminate; constructor; inversion E; inversion F; subst; eauto. congruence. }
    assert (G : forall ex, map bare (match ex with Some e => ex_actions e | None => [] end) = map bare xs ->
      match ex with Some e => execute U action e ln (is_index (lx_input U l)) | None => ln end =
      fold_left (as_placed action (is_index (lx_input U l)) (is_index (lx_input U ln))) xs ln).
    { intros [e|] E.
      - rewrite execute_ok by exact Ka. apply execute_same; auto.
      - destruct xs; [reflexivity | discriminate]. }
    rewrite (G _ A5), (G _ A5'). reflexivity.
  - exfalso. destruct A1 as (A & (x & B) & _). exact (N' n x A B).
  - exfalso. destruct A1' as (A & (x & B) & _). exact (N n' x A B).
  - split; [reflexivity|]. destruct (lt_eq_lt_dec j j') as [[L|L]|L].
    + exfalso. eapply B4; [lia|]. apply B3'. lia.
    + subst j'. congruence.
    + exfalso. eapply B4'; [lia|]. apply B3. lia.
Qed.

(** If, in addition, a rule passes the same actions whatever it matches, and no action depends on the
    position, then the actions executed are the same, too: the lexer ends up in the same state. *)
Theorem C35_same_effects_partial : forall D raw cs pos U a action sempred ctx_hash actions_hash configs_hash k mode l
    fuel1 s1 r1 l1 s1' fuel2 s2 r2 l2 s2',
  lexer_class D raw cs pos U a sempred ctx_hash actions_hash configs_hash ->
  (forall r i l, lx_input U (action r i l) = lx_input U l) -> one_action_list a -> no_custom_actions a ->
  standing raw cs pos U k l -> item (mode_to_start_state a) mode <> None ->
  warmed D U a action sempred ctx_hash actions_hash configs_hash s1 -> cache_fits s1' ->
  match_token D U a action sempred ctx_hash actions_hash configs_hash fuel1 mode l s1 = Val (r1, l1, s1') ->
  warmed D U a action sempred ctx_hash actions_hash configs_hash s2 -> cache_fits s2' ->
  match_token D U a action sempred ctx_hash actions_hash configs_hash fuel2 mode l s2 = Val (r2, l2, s2') ->
  r1 = r2 /\ l1 = l2.
Proof.
  intros D raw cs pos U a action sempred ch ah sh k mode l f1 s1 r1 l1 s1' f2 s2 r2 l2 s2' LC Ka One NCA St Mo W1 F1 H1 W2 F2 H2.
  assert (E1 := match_ends _ _ _ _ _ _ _ _ _ _ _ _ _ _ _ _ _ _ _ LC W1 St Mo H1 F1).
  assert (E2 := match_ends _ _ _ _ _ _ _ _ _ _ _ _ _ _ _ _ _ _ _ LC W2 St Mo H2 F2).
  eapply ends_same; eauto.
Qed.
Print Assumptions C35_same_effects_partial.

(** ** A grammar for the examples: a keyword, identifiers made of a fragment, skipped blanks:
    IF : 'i' 'f' ; ID : LETTER+ ; WS : ' ' -> skip ; fragment LETTER : [a-z] ; *)
Definition st (rule number : Z) (ty : state_type) (ts : list transition) : atn_state :=
  AState rule number 0 ty ts (match ts with [] => false | _ => forallb is_epsilon ts end).
Definition kw_atn : atn := Atn [0] LEXER [LexerSkipAction] 3 [0] [1; 3; 5; 7] [2; 4; 6; 8] [1; 2; 3; 0]
  [ st 0 0 (DecisionState 0 false TokenStartState) [Epsilon 1 (-1); Epsilon 3 (-1); Epsilon 5 (-1)];
    st 0 1 (RuleStartState 2 false) [Epsilon 9 (-1)];
    st 0 2 RuleStopState [];
    st 1 3 (RuleStartState 4 false) [Epsilon 12 (-1)];
    st 1 4 RuleStopState [];
    st 2 5 (RuleStartState 6 false) [Epsilon 14 (-1)];
    st 2 6 RuleStopState [];
    st 3 7 (RuleStartState 8 false) [Epsilon 16 (-1)];
    st 3 8 RuleStopState [Epsilon 13 (-1)];
    st 0 9 BasicState [Atom 10 105];
    st 0 10 BasicState [Atom 11 102];
    st 0 11 BasicState [Epsilon 2 (-1)];
    st 1 12 BasicState [RuleTr 7 13 3 0];
    st 1 13 (DecisionState 1 false PlusLoopBack) [Epsilon 12 (-1); Epsilon 4 (-1)];
    st 2 14 BasicState [Atom 15 32];
    st 2 15 BasicState [Action 6 false 2 0 0];
    st 3 16 BasicState [Range 17 97 122];
    st 3 17 BasicState [Epsilon 8 (-1)] ].
Lemma in_states a i s : state_at a i = Some s -> In (i, s) (combine (map Z.of_nat (seq 0 (length (states a)))) (states a)).
Proof.
  intros E. unfold state_at in E. destruct (Z.ltb_spec i 0) as [L|L]; [discriminate|]. replace i with (Z.of_nat (Z.to_nat i)) by lia.
  generalize dependent (Z.to_nat i). intros n E. clear L i.
  assert (G : forall l k, nth_error l n = Some s -> In (Z.of_nat (k + n), s) (combine (map Z.of_nat (seq k (length l))) l)).
  { clear E. induction n as [|n IH]; intros [|x l] k E; try discriminate; cbn [length seq map combine].
    - left. inversion E. rewrite Nat.add_0_r. reflexivity.
    - right. replace (k + Datatypes.S n)%nat with (Datatypes.S k + n)%nat by lia. apply IH. exact E. }
  apply (G _ 0%nat E).
Qed.
Ltac each_state E := apply in_states in E; cbn in E; repeat (destruct E as [E|E]; [injection E as <- <-|]); [.. | contradiction E].
Ltac each_trans I := repeat (destruct I as [<-|I]; [|]); try contradiction.

Lemma kw_formed : lexer_formed kw_atn.
Proof.
  split; [vm_compute; discriminate|]. split.
  - intros m [<-|[]]. split; [discriminate|]. intros s E. inversion E. discriminate.
  - intros i s E. each_state E; (split; [reflexivity|split]);
      try (intros t I; cbn in I; each_trans I; (split; [discriminate|]; split; [exact Logic.I|]; split; [cbn; lia|]; cbn; try discriminate; exact Logic.I)).
    all: try (right; left; split; [discriminate|]; split; [reflexivity|]; intros t I; cbn in I; each_trans I; intros X; exact X).
    all: try (right; right; split; [discriminate|]; split; [reflexivity|]; right; eexists; split; [reflexivity | exact Logic.I]).
    all: try (left; split; [reflexivity|]; intros t I; cbn in I; each_trans I; eauto).
Qed.
Ltac off_mode := intros [X|[]]; discriminate X.
Lemma kw_apart : rules_apart kw_atn.
Proof.
  split.
  - intros i s t E. each_state E; intros N I; cbn in I; each_trans I; (split; [off_mode|]).
    all: try (split; [off_mode|]).
    all: intros O; try reflexivity.
    all: exfalso; first [apply N; reflexivity | apply O; left; reflexivity].
  - intros i s E. each_state E; intros St; try discriminate St; discriminate.
Qed.
Lemma kw_greedy : greedy kw_atn.
Proof. intros i s E. each_state E; cbn; auto. Qed.
Lemma kw_no_custom : no_custom_actions kw_atn.
Proof. intros x [<-|[]]. reflexivity. Qed.

(** a blank passes the skip action, nothing else passes any *)
Definition kw_passed (p : position) : list lexer_action := if bottom p =? 6 then [LexerSkipAction] else [].
Definition kw_pos (p : position) : Prop := snd p = [] \/ (snd p = [13] /\ In (fst p) [7; 16; 17; 8]).
Ltac kw_done := split; [first [left; reflexivity | right; split; [reflexivity | cbn; tauto]] | reflexivity].
Lemma kw_quiet i st ys r : kw_pos (i, st) -> quiet_step kw_atn (i, st) ys r -> kw_pos r /\ kw_passed (i, st) ++ ys = kw_passed r.
Proof.
  intros K S. cbn [fst snd] in K.
  inversion S as [i0 st0 s g n E N I|i0 st0 s g f rr p E N I|i0 f st0 s E N|i0 s g d rr k p x E N I X|i0 f st0 s g d rr k p E N I]; subst; clear S;
  each_state E; try (exfalso; apply N; reflexivity); try discriminate N;
  try (cbn in I; repeat (destruct I as [I|I]; [first [discriminate I | injection I; intros; subst; clear I]|]); try contradiction).
  all: try (destruct K as [K|(K & J)]; cbn [fst snd] in *; [try discriminate K; subst; kw_done|]).
  all: try (injection K as -> ->; kw_done).
  all: try (subst; cbn in J; repeat (destruct J as [J|J]; [try discriminate J|]); try contradiction; kw_done).
  destruct K as [_|(K & _)]; [|discriminate K]. injection X as <-. kw_done.
Qed.
Lemma kw_char i st c r : kw_pos (i, st) -> char_step kw_atn (i, st) c r -> kw_pos r /\ kw_passed (i, st) = kw_passed r.
Proof.
  intros K S. cbn [fst snd] in K. inversion S as [i0 st0 s t c0 E N I Sy]; subst; clear S. each_state E; try (exfalso; apply N; reflexivity);
  cbn in I; repeat (destruct I as [I|I]; [subst t; cbn [symbols] in Sy; try contradiction|]); try contradiction; cbn [get_target].
  all: try (destruct K as [K|(K & J)]; cbn [fst snd] in *; [try discriminate K; subst; kw_done|]).
  all: try (subst; cbn in J; repeat (destruct J as [J|J]; [try discriminate J|]); try contradiction; kw_done).
Qed.
Lemma kw_run m k q w xs p : rule_begins kw_atn m k q -> run kw_atn (q, []) w xs p -> kw_pos p /\ xs = kw_passed p.
Proof.
  intros B R. assert (Q : q = 1 \/ q = 3 \/ q = 5).
  { destruct B as (ms & s & t & Em & Es & Et & ->). assert (ms = 0).
    { unfold item in Em. destruct (m <? 0); [discriminate|]. apply nth_error_In in Em. destruct Em as [<-|[]]. reflexivity. }
    subst ms. inversion Es; subst s. do 3 (destruct k as [|k]; [cbn in Et; inversion Et; subst; cbn; auto|]). destruct k; discriminate. }
  induction R as [|w xs p ys r R IH S|w xs p c r R IH S].
  - destruct Q as [->|[->| ->]]; kw_done.
  - destruct IH as (K & ->). destruct p as [i st]. destruct (kw_quiet _ _ _ _ K S). auto.
  - destruct IH as (K & ->). destruct p as [i st]. exact (kw_char _ _ _ _ K S).
Qed.
Lemma kw_one_action_list : one_action_list kw_atn.
Proof.
  intros m k w xs w' xs' (q & i & s & B & R & E & S) (q' & i' & s' & B' & R' & E' & S').
  destruct (kw_run _ _ _ _ _ _ B R) as (_ & ->). destruct (kw_run _ _ _ _ _ _ B' R') as (_ & ->).
  rewrite <- (begins_det _ _ _ _ _ B B') in R'.
  destruct (run_bottom _ kw_apart _ _ _ _ (begins_off _ kw_formed kw_apart _ _ _ B) R) as (_ & E1).
  destruct (run_bottom _ kw_apart _ _ _ _ (begins_off _ kw_formed kw_apart _ _ _ B) R') as (_ & E2).
  rewrite <- E2 in E1. unfold bottom in E1. cbn [snd fst last] in E1.
  each_state E; try discriminate S; each_state E'; try discriminate S'; try reflexivity; discriminate E1.
Qed.

(** the text is: if ifx# *)
Definition kw_text : list Z := [105; 102; 32; 105; 102; 120; 35].
Definition kw_lexer (k : Z) : lexer unit := with_input unit (new_base_lexer unit (stream_new kw_text) tt) (IStream kw_text k).
Notation kw_match k s :=
  (match_token slice_data unit kw_atn LexerProps.no_action LexerProps.no_sempred (fun _ => 0) (fun _ => 0) ideal_hash 40 0 (kw_lexer k) s).
Definition kw_warm (k : Z) (s : sim) : sim := match kw_match k s with Val (_, _, s') => s' | _ => s end.
Lemma kw_class : lexer_class slice_data kw_text kw_text Z.of_nat unit kw_atn LexerProps.no_sempred (fun _ => 0) (fun _ => 0) ideal_hash.
Proof.
  split; [constructor; repeat constructor; discriminate|]. split; [repeat constructor|]. split; [apply kw_formed|]. split; [apply kw_apart|].
  split; [apply kw_greedy | apply ideal_no_collisions, kw_formed].
Qed.
Lemma kw_warmed s : warmed slice_data unit kw_atn LexerProps.no_action LexerProps.no_sempred (fun _ => 0) (fun _ => 0) ideal_hash s ->
  forall k, warmed slice_data unit kw_atn LexerProps.no_action LexerProps.no_sempred (fun _ => 0) (fun _ => 0) ideal_hash (kw_warm k s).
Proof.
  intros W k. unfold kw_warm. destruct (kw_match k s) as [[[r l] s']| |] eqn:E; auto. eapply warmed_match; [exact W | exact E].
Qed.
Definition outcome_at (k : Z) (s : sim) : option (match_result * Z) :=
  match kw_match k s with Val (r, l, _) => Some (r, is_index (lx_input unit l)) | _ => None end.

(** The hypotheses are met, with an empty cache and with a warm one; the keyword wins over the
    identifier where both match, the longer identifier wins over the keyword, and nothing matches a
    number sign.  The grammar meets the extra hypotheses of [C35_same_effects_partial], too. *)
Example C33_C34_C35_nonvacuous :
  let cold := new_sim kw_atn in let warm := kw_warm 6 (kw_warm 3 (kw_warm 2 cold)) in
  lexer_class slice_data kw_text kw_text Z.of_nat unit kw_atn LexerProps.no_sempred (fun _ => 0) (fun _ => 0) ideal_hash /\
  warmed slice_data unit kw_atn LexerProps.no_action LexerProps.no_sempred (fun _ => 0) (fun _ => 0) ideal_hash cold /\
  warmed slice_data unit kw_atn LexerProps.no_action LexerProps.no_sempred (fun _ => 0) (fun _ => 0) ideal_hash warm /\
  length (flat_map dfa_states (sm_dfas cold)) = 1%nat /\ length (flat_map dfa_states (sm_dfas warm)) = 6%nat /\
  map (fun k => outcome_at k cold) [0; 2; 3; 6; 7] =
    [Some (inl 1, 2); Some (inl 3, 3); Some (inl 2, 6); Some (inr (LexerNoAltError 6), 6); Some (inl (-1), 7)] /\
  map (fun k => outcome_at k warm) [0; 2; 3; 6; 7] = map (fun k => outcome_at k cold) [0; 2; 3; 6; 7] /\
  one_action_list kw_atn /\ no_custom_actions kw_atn /\
  longest_match kw_atn 0 (skipn 3 kw_text) 3.
Proof.
  cbv zeta. split; [apply kw_class|]. split; [constructor|]. split; [do 3 apply kw_warmed; constructor|].
  split; [vm_compute; reflexivity|]. split; [vm_compute; reflexivity|]. split; [vm_compute; reflexivity|]. split; [vm_compute; reflexivity|].
  split; [apply kw_one_action_list|]. split; [apply kw_no_custom|].
  destruct (kw_match 3 (new_sim kw_atn)) as [[[r l] s]| |] eqn:E; [|vm_compute in E; discriminate ..].
  assert (H := C33_longest_match slice_data kw_text kw_text Z.of_nat unit kw_atn LexerProps.no_action LexerProps.no_sempred (fun _ => 0) (fun _ => 0) ideal_hash
     3 0 40 (kw_lexer 3) (new_sim kw_atn) r l s kw_class (fun _ _ _ => eq_refl) (warmed_new _ _ _ _ _ _ _ _)).
  assert (F : cache_fits s /\ r = inl 2 /\ is_index (lx_input unit l) = 6).
  { vm_compute in E. injection E as <- <- <-. split; [intros d [<-|[]]; vm_compute; reflexivity | auto]. }
  destruct F as (F & -> & L).
  assert (Sd : standing kw_text kw_text Z.of_nat unit 3 (kw_lexer 3)) by (split; [cbn; lia | reflexivity]).
  assert (Mo : item (mode_to_start_state kw_atn) 0 <> None) by discriminate.
  specialize (H F Sd Mo E). cbn beta iota zeta in H.
  destruct H as [(n & H & Hi)|(X & _)]; [|discriminate X]. rewrite Hi in L. cbn [is_index] in L. replace n with 3%nat in H by lia. exact H.
Qed.

(** *** The actions are not transparent.  A : 'a' -> skip | 'b' -> more ;
    The DFA states reached by 'a' and by 'b' differ in their actions only.  The hash by which they are
    found does not include the actions, since the hash of an executor is not updated when an action
    is appended: whichever letter comes first decides for both. *)
Definition ab_atn : atn := Atn [0] LEXER [LexerSkipAction; LexerMoreAction] 1 [0] [1] [2] [1]
  [ st 0 0 (DecisionState 0 false TokenStartState) [Epsilon 1 (-1)];
    st 0 1 (RuleStartState 2 false) [Epsilon 3 (-1)];
    st 0 2 RuleStopState [];
    st 0 3 (DecisionState 1 false (BlockStartState 2 BasicBlockStart)) [Epsilon 4 (-1); Epsilon 6 (-1)];
    st 0 4 BasicState [Atom 5 97];
    st 0 5 BasicState [Action 2 false 0 0 0];
    st 0 6 BasicState [Atom 7 98];
    st 0 7 BasicState [Action 2 false 0 1 0] ].
Lemma ab_formed : lexer_formed ab_atn.
Proof.
  split; [vm_compute; discriminate|]. split.
  - intros m [<-|[]]. split; [discriminate|]. intros s E. inversion E. discriminate.
  - intros i s E. each_state E; (split; [reflexivity|split]);
      try (intros t I; cbn in I; each_trans I; (split; [discriminate|]; split; [exact Logic.I|]; split; [cbn; lia|]; cbn; try discriminate; exact Logic.I)).
    all: try (right; left; split; [discriminate|]; split; [reflexivity|]; intros t I; cbn in I; each_trans I; intros X; exact X).
    all: try (right; right; split; [discriminate|]; split; [reflexivity|]; right; eexists; split; [reflexivity | exact Logic.I]).
    all: try (left; split; [reflexivity|]; intros t I; cbn in I; each_trans I; eauto).
Qed.
Lemma ab_apart : rules_apart ab_atn.
Proof.
  split.
  - intros i s t E. each_state E; intros N I; cbn in I; each_trans I; (split; [off_mode|]).
    all: try (split; [off_mode|]).
    all: intros O; try reflexivity.
    all: exfalso; first [apply N; reflexivity | apply O; left; reflexivity].
  - intros i s E. each_state E; intros St; try discriminate St; discriminate.
Qed.
Lemma ab_greedy : greedy ab_atn.
Proof. intros i s E. each_state E; cbn; auto. Qed.
Notation ab_match text s :=
  (match_token slice_data unit ab_atn LexerProps.no_action LexerProps.no_sempred (fun _ => 0) (fun _ => 0) ideal_hash 40 0
    (new_base_lexer unit (stream_new text) tt) s).

Theorem C35_actions_refuted : exists a s1 s2 l r1 l1 s1' r2 l2 s2',
  lexer_class slice_data [98] [98] Z.of_nat unit a LexerProps.no_sempred (fun _ => 0) (fun _ => 0) ideal_hash /\
  standing [98] [98] Z.of_nat unit 0 l /\ item (mode_to_start_state a) 0 <> None /\
  warmed slice_data unit a LexerProps.no_action LexerProps.no_sempred (fun _ => 0) (fun _ => 0) ideal_hash s1 /\ cache_fits s1' /\
  match_token slice_data unit a LexerProps.no_action LexerProps.no_sempred (fun _ => 0) (fun _ => 0) ideal_hash 40 0 l s1 = Val (r1, l1, s1') /\
  warmed slice_data unit a LexerProps.no_action LexerProps.no_sempred (fun _ => 0) (fun _ => 0) ideal_hash s2 /\ cache_fits s2' /\
  match_token slice_data unit a LexerProps.no_action LexerProps.no_sempred (fun _ => 0) (fun _ => 0) ideal_hash 40 0 l s2 = Val (r2, l2, s2') /\
  lx_type unit l1 = LEXER_MORE /\ lx_type unit l2 = LEXER_SKIP.
Proof.
  set (s1 := new_sim ab_atn). set (s2 := match ab_match [97] s1 with Val (_, _, s) => s | _ => s1 end).
  destruct (ab_match [98] s1) as [[[r1 l1] s1']| |] eqn:E1; [|vm_compute in E1; discriminate ..].
  destruct (ab_match [98] s2) as [[[r2 l2] s2']| |] eqn:E2; [|vm_compute in E2; discriminate ..].
  assert (W1 : warmed slice_data unit ab_atn LexerProps.no_action LexerProps.no_sempred (fun _ => 0) (fun _ => 0) ideal_hash s1) by constructor.
  assert (W2 : warmed slice_data unit ab_atn LexerProps.no_action LexerProps.no_sempred (fun _ => 0) (fun _ => 0) ideal_hash s2).
  { unfold s2. destruct (ab_match [97] s1) as [[[r l] s]| |] eqn:E; auto. eapply warmed_match; [exact W1 | exact E]. }
  exists ab_atn, s1, s2, (new_base_lexer unit (stream_new [98]) tt), r1, l1, s1', r2, l2, s2'. split.
  { split; [constructor; repeat constructor; discriminate|]. split; [repeat constructor|]. split; [apply ab_formed|]. split; [apply ab_apart|].
    split; [apply ab_greedy | apply ideal_no_collisions, ab_formed]. }
  split; [split; [cbn; lia | reflexivity]|]. split; [discriminate|]. split; [exact W1|].
  assert (F1 : cache_fits s1' /\ lx_type unit l1 = LEXER_MORE).
  { clear - E1. vm_compute in E1. injection E1 as <- <- <-. split; [intros d [<-|[]]; vm_compute; reflexivity | reflexivity]. }
  assert (F2 : cache_fits s2' /\ lx_type unit l2 = LEXER_SKIP).
  { clear - E2. vm_compute in E2. injection E2 as <- <- <-. split; [intros d [<-|[]]; vm_compute; reflexivity | reflexivity]. }
  split; [apply F1|]. split; [exact E1|]. split; [exact W2|]. split; [apply F2|]. split; [exact E2|]. split; [apply F1 | apply F2].
Qed.
Print Assumptions C35_actions_refuted.
