(** Proofs about the lexer: positions, tiling, modes and actions (C36, C38-C42). *)
From Coq Require Import ZArith List Sorted Bool Lia.
From Coq Require Import ZifyBool ZifyNat.
From Verif Require Import Outcome CharStreamModel CharStreamSpec CharStreamProofs PredContextModel ConfigSetModel
  DfaModel AtnModel LexerModel LexerSpec.
From Verif Require FactoryModel.
Import ListNotations.
Local Open Scope Z_scope.
Local Open Scope outcome_scope.

Lemma obind_val {A B} (x : outcome A) (f : A -> outcome B) b : obindo x f = Val b -> exists v, x = Val v /\ f v = Val b.
Proof. destruct x as [v| |]; cbn; intros H; try discriminate. eauto. Qed.
Ltac step H x E := apply obind_val in H; destruct H as (x & E & H).

Lemma lift_val {A} (r : res A) v : lift r = Val v -> r = Ok v.
Proof. destruct r; cbn; intros H; inversion H; auto. Qed.

(** ** Modes (C39) *)
Lemma vec_pop_app v x : vec_pop (v ++ [x]) = Some (v, x).
Proof. induction v as [|y v IH]; cbn; [reflexivity|]. rewrite IH. reflexivity. Qed.

Section Modes.
  Context {U : Type}.
  Lemma commands_app (l : lexer U) b c : commands l (b ++ c) = commands (commands l b) c.
  Proof. apply fold_left_app. Qed.
  (** A balanced sequence may leave another mode, but the same stack. *)
  Lemma balanced_stack b : balanced b -> forall l : lexer U, exists m, commands l b = with_modes U l (lx_mode_stack U l) m.
  Proof.
    induction 1 as [|m|m b B IH|b c B IHb C IHc]; intros l.
    - exists (lx_mode U l). destruct l; reflexivity.
    - exists m. destruct l; reflexivity.
    - change (PushMode m :: b ++ [PopMode]) with ([PushMode m] ++ b ++ [PopMode]).
      rewrite !commands_app. destruct (IH (commands l [PushMode m])) as (m' & ->).
      exists (lx_mode U l). destruct l. unfold commands, command, pop_mode, push_mode, set_mode, with_modes. cbn -[vec_pop].
      rewrite vec_pop_app. reflexivity.
    - rewrite commands_app. destruct (IHb l) as (m & ->). destruct (IHc (with_modes U l (lx_mode_stack U l) m)) as (m' & ->).
      exists m'. destruct l; reflexivity.
  Qed.
  Lemma push_pop b : balanced b -> forall (l : lexer U) m, commands l (PushMode m :: b ++ [PopMode]) = l.
  Proof.
    intros B l m. change (PushMode m :: b ++ [PopMode]) with ([PushMode m] ++ b ++ [PopMode]).
    rewrite !commands_app. destruct (balanced_stack b B (commands l [PushMode m])) as (m' & ->).
    destruct l. unfold commands, command, pop_mode, push_mode, set_mode, with_modes. cbn -[vec_pop].
    rewrite vec_pop_app. reflexivity.
  Qed.
End Modes.

(** ** Actions (C42) *)
Section Actions.
  Context {U : Type}.
  Variable action : Z -> Z -> lexer U -> lexer U.
  Hypothesis stays : forall r i l, lx_input U (action r i l) = lx_input U l.

  Lemma action_input x l : lx_input U (execute_action U action x l) = lx_input U l.
  Proof.
    induction x; cbn; auto; try (destruct l; reflexivity).
    unfold pop_mode. destruct (vec_pop _) as [[st m]|]; destruct l; reflexivity.
  Qed.

  Lemma action_moved x (l : lexer U) i : is_position_dependent x = false ->
    execute_action U action x (move_to l i) = move_to (execute_action U action x l) i.
  Proof.
    destruct x; cbn; intros H; try discriminate; try (destruct l; reflexivity).
    unfold pop_mode. destruct l; cbn -[vec_pop]. destruct (vec_pop _) as [[st m]|]; reflexivity.
  Qed.

  Lemma move_move (l : lexer U) i j : move_to (move_to l i) j = move_to l j.
  Proof. destruct l; reflexivity. Qed.
  Lemma move_here (l : lexer U) : move_to l (is_index (lx_input U l)) = l.
  Proof. destruct l as [[]]; reflexivity. Qed.
  Lemma move_index (l : lexer U) i : is_index (lx_input U (move_to l i)) = i.
  Proof. destruct l; reflexivity. Qed.
  Lemma seek_move (l : lexer U) i : with_input U l (seek (lx_input U l) i) = move_to l i.
  Proof. reflexivity. Qed.

  Definition as_placed (start stop : Z) (l : lexer U) (x : lexer_action) : lexer U :=
    move_to (execute_action U action x (move_to l (place_of start stop x))) stop.

  Lemma execute_loop_ok start stop xs : forall requires l i, requires = negb (i =? stop) ->
    exists requires' i', requires' = negb (i' =? stop) /\
      execute_loop U action start stop xs requires (move_to l i) =
        (requires', move_to (fold_left (as_placed start stop) xs (move_to l stop)) i').
  Proof.
    induction xs as [|x xs IH]; intros requires l i Hr; cbn [execute_loop fold_left].
    { exists requires, i. rewrite move_move. auto. }
    destruct (is_position_dependent x) eqn:Ex.
    - assert (Hp : match x with
          | LexerIndexedCustomAction offset _ => (negb (start + offset =? stop), with_input U (move_to l i) (seek (lx_input U (move_to l i)) (start + offset)))
          | _ => if true then (false, with_input U (move_to l i) (seek (lx_input U (move_to l i)) stop)) else (requires, move_to l i)
          end = (negb (place_of start stop x =? stop), move_to l (place_of start stop x))).
      { destruct x; try discriminate; cbn; rewrite seek_move, move_move; auto. rewrite Z.eqb_refl. reflexivity. }
      rewrite Hp. clear Hp.
      set (l1 := execute_action U action x (move_to l (place_of start stop x))).
      assert (E1 : l1 = move_to l1 (place_of start stop x)).
      { assert (Ei : is_index (lx_input U l1) = place_of start stop x).
        { unfold l1. rewrite action_input. apply move_index. }
        symmetry. rewrite <- Ei. apply move_here. }
      rewrite E1. destruct (IH (negb (place_of start stop x =? stop)) l1 (place_of start stop x) eq_refl) as (r' & i' & Hr' & ->).
      exists r', i'. split; [exact Hr'|]. reflexivity.
    - assert (Hp : match x with
          | LexerIndexedCustomAction offset _ => (negb (start + offset =? stop), with_input U (move_to l i) (seek (lx_input U (move_to l i)) (start + offset)))
          | _ => if false then (false, with_input U (move_to l i) (seek (lx_input U (move_to l i)) stop)) else (requires, move_to l i)
          end = (requires, move_to l i)) by (destruct x; try discriminate; reflexivity).
      rewrite Hp. clear Hp. rewrite action_moved by exact Ex.
      destruct (IH requires (execute_action U action x l) i Hr) as (r' & i' & Hr' & ->).
      exists r', i'. split; [exact Hr'|]. do 3 f_equal.
      unfold as_placed. rewrite move_move, action_moved by exact Ex. rewrite move_move. reflexivity.
  Qed.

  Lemma as_placed_index start stop xs : forall l, is_index (lx_input U l) = stop ->
    is_index (lx_input U (fold_left (as_placed start stop) xs l)) = stop.
  Proof. induction xs as [|x xs IH]; intros l H; cbn; [exact H|]. apply IH. apply move_index. Qed.

  Lemma execute_ok e l start :
    execute U action e l start = fold_left (as_placed start (is_index (lx_input U l))) (ex_actions e) l.
  Proof.
    unfold execute. set (stop := is_index (lx_input U l)).
    rewrite <- (move_here l) at 1. fold stop.
    destruct (execute_loop_ok start stop (ex_actions e) false l stop ltac:(rewrite Z.eqb_refl; reflexivity)) as (r & i & Hr & ->).
    assert (El : move_to l stop = l) by apply move_here. rewrite El.
    set (l' := fold_left _ _ l). assert (Ei : is_index (lx_input U l') = stop) by (apply as_placed_index; reflexivity).
    assert (E' : move_to l' stop = l') by (rewrite <- Ei; apply move_here).
    destruct r.
    - rewrite seek_move, move_move. exact E'.
    - assert (i = stop) by lia. subst i. exact E'.
  Qed.
  Lemma execute_index e l start : is_index (lx_input U (execute U action e l start)) = is_index (lx_input U l).
  Proof. rewrite execute_ok. apply as_placed_index. reflexivity. Qed.
  Lemma execute_raw e l start : data_raw (lx_input U (execute U action e l start)) = data_raw (lx_input U l).
  Proof.
    rewrite execute_ok. generalize (is_index (lx_input U l)) as stop. revert l.
    induction (ex_actions e) as [|x xs IH]; intros l stop; cbn [fold_left]; [reflexivity|].
    rewrite IH. unfold as_placed. cbn [move_to with_input lx_input data_raw]. rewrite action_input. reflexivity.
  Qed.
  Lemma execute_input e l start : lx_input U (execute U action e l start) = lx_input U l.
  Proof.
    pose proof (execute_index e l start) as H. pose proof (execute_raw e l start) as H'.
    destruct (lx_input U (execute U action e l start)), (lx_input U l). cbn in *. congruence.
  Qed.
End Actions.

(** The collected list: every custom action carries the offset of the next consumed character. *)
Definition placed_action (start : Z) (p : lexer_action * option Z) : lexer_action :=
  match snd p with
  | Some i => fix_offset (i - start) (fst p)
  | None => fst p
  end.
Lemma fix_offset_twice o o' x : fix_offset o (fix_offset o' x) = fix_offset o' x.
Proof. destruct x; reflexivity. Qed.
Lemma collect_ok start es : forall xs,
  fold_left (collect start) es xs =
  map (fun x => match next_consumed es with Some i => fix_offset (i - start) x | None => x end) xs
    ++ map (placed_action start) (passed_at es).
Proof.
  induction es as [|e es IH]; intros xs; cbn [fold_left].
  - cbn. rewrite map_id, app_nil_r. reflexivity.
  - rewrite IH. destruct e as [x|i]; cbn [collect next_consumed passed_at map].
    + rewrite map_app, <- app_assoc. cbn [map app]. reflexivity.
    + rewrite map_map. f_equal. apply map_ext. intros x. destruct (next_consumed es); [apply fix_offset_twice | reflexivity].
Qed.

(** ** Lines and columns *)
Definition advance (p : Z * Z) (c : Z) : Z * Z := if c =? NEWLINE then (fst p + 1, 0) else (fst p, snd p + 1).
Definition place_after (before : list Z) : Z * Z := fold_left advance before (1, 0).
Lemma place_snoc b c : place_after (b ++ [c]) = advance (place_after b) c.
Proof. unfold place_after. rewrite fold_left_app. reflexivity. Qed.
Lemma place_line b : fst (place_after b) = line_after b.
Proof.
  induction b as [|c b IH] using rev_ind; [reflexivity|]. rewrite place_snoc. unfold line_after in *.
  rewrite count_occ_app. unfold advance, NEWLINE. cbn [count_occ].
  destruct (Z.eqb_spec c 10) as [->|N]; destruct (Z.eq_dec _ 10); cbn [fst]; lia.
Qed.
Lemma place_column b : column_after b (snd (place_after b)).
Proof.
  induction b as [|c b IH] using rev_ind.
  { exists [], []. cbn. intuition. }
  rewrite place_snoc. destruct IH as (e & cur & Hb & Hn & He & Hl). unfold advance, NEWLINE.
  destruct (Z.eqb_spec c 10) as [->|N]; cbn [snd].
  - exists (b ++ [10]), []. rewrite app_nil_r. cbn. eauto 10.
  - rewrite Hl. exists e, (cur ++ [c]). rewrite Hb at 1. rewrite app_assoc. rewrite in_app_iff. cbn [In]. rewrite app_length. cbn [length].
    repeat split; auto; [intuition|lia].
Qed.
Lemma column_unique b : forall n m, column_after b n -> column_after b m -> n = m.
Proof.
  intros n m (e & cur & Hb & Hn & He & ->) (e' & cur' & Hb' & Hn' & He' & ->).
  assert (G : forall e cur e' cur', e ++ cur = e' ++ cur' -> ~ In 10 cur -> (e = [] \/ exists x, e = x ++ [10]) -> ~ In 10 cur' ->
     (e' = [] \/ exists x, e' = x ++ [10]) -> (length e <= length e')%nat -> length e = length e').
  { clear. intros e cur e' cur' H N E N' E' L. destruct (Nat.eq_dec (length e) (length e')); auto. exfalso.
    destruct E' as [-> | (x & ->)]; [cbn in *; lia|].
    assert (nth_error (e ++ cur) (length x) = Some 10).
    { rewrite H, <- app_assoc, nth_error_app2, Nat.sub_diag by lia. reflexivity. }
    rewrite app_length in *. cbn in *. rewrite nth_error_app2 in H0 by lia. apply nth_error_In in H0. auto. }
  assert (length e = length e').
  { destruct (le_lt_dec (length e) (length e')); [apply (G e cur e' cur') | symmetry; apply (G e' cur' e cur)]; auto; try congruence; lia. }
  assert (length (e ++ cur) = length (e' ++ cur')) by congruence. rewrite !app_length in *. lia.
Qed.

(** ** A matcher never leaves the characters of the input *)
Lemma source_presents D raw cs pos : text_source D raw cs pos -> presents D raw cs pos.
Proof. destruct 1; [apply slice_presents | apply str_presents; assumption]. Qed.
Lemma source_no_eof D raw cs pos : text_source D raw cs pos -> Forall (fun c => 0 <= c) cs.
Proof.
  destruct 1 as [cs F|cs F]; [exact F|]. eapply Forall_impl; [|exact F]. intros c H. unfold valid_char in H. lia.
Qed.
Lemma place_refl {U} (l : lexer U) : same_place l l.
Proof. unfold same_place. auto 20. Qed.
Lemma place_trans {U} (l l' l'' : lexer U) : same_place l l' -> same_place l' l'' -> same_place l l''.
Proof. unfold same_place. intuition congruence. Qed.

Section Place.
  Variable D : input_data.
  Variable U : Type.
  Variable a : atn.
  Variable action : Z -> Z -> lexer U -> lexer U.
  Variable sempred : Z -> Z -> lexer U -> bool * lexer U.
  Variable before_emit : lexer U -> lexer U.
  Variable ctx_hash : pctx -> Z.
  Variable actions_hash : list lexer_action -> Z.
  Variable configs_hash : list (config hashed) -> Z.
  Hypothesis keeps : place_keeping action sempred before_emit.

  Notation lexer := (lexer U).
  Notation closure := (closure D U a sempred ctx_hash actions_hash).

  (** what predicates may do *)
  Definition quiet (l l' : lexer) : Prop := same_place l l' /\ lx_type U l' = lx_type U l /\ lx_token U l' = lx_token U l.
  Lemma quiet_refl l : quiet l l.
  Proof. split; [apply place_refl | auto]. Qed.
  Lemma quiet_trans l l' l'' : quiet l l' -> quiet l' l'' -> quiet l l''.
  Proof. intros (A & B & C) (A' & B' & C'). split; [eapply place_trans; eauto|]. split; congruence. Qed.
  Lemma sempred_quiet r i l : quiet l (snd (sempred r i l)).
  Proof. destruct keeps as (_ & _ & K). destruct (K r i l) as (A & B & C). split; auto. Qed.

  (** everything but where the lexer stands *)
  Definition same_rest (l l' : lexer) : Prop :=
    lx_start U l' = lx_start U l /\ lx_start_line U l' = lx_start_line U l /\ lx_start_column U l' = lx_start_column U l /\
    lx_hit_eof U l' = lx_hit_eof U l /\ lx_errors U l' = lx_errors U l /\ lx_log U l' = lx_log U l.

  Lemma consume_keeps l l' : sim_consume D U l = Val l' ->
    data_raw (lx_input U l') = data_raw (lx_input U l) /\ same_rest l l' /\ lx_type U l' = lx_type U l /\ lx_token U l' = lx_token U l.
  Proof.
    unfold sim_consume. intros H. step H ch E. step H i E'. apply lift_val in E, E'. inversion H; subst l'; clear H.
    assert (Hr : data_raw i = data_raw (lx_input U l)).
    { unfold consume in E'. assert (Ei : lx_input U (if ch =? NEWLINE then with_pos U l (lx_line U l + 1) 0 else with_pos U l (lx_line U l) (lx_column U l + 1)) = lx_input U l)
        by (destruct (ch =? NEWLINE); reflexivity).
      rewrite Ei in E'. destruct (d_offset _ _ _ _); inversion E'. reflexivity. }
    destruct (ch =? NEWLINE); cbn; unfold same_rest; cbn; auto 20.
  Qed.

  Lemma predicate_quiet r i sp l b l' : evaluate_predicate D U sempred r i sp l = Val (b, l') -> quiet l l'.
  Proof.
    unfold evaluate_predicate. destruct sp; cbn [negb].
    - intros H. step H l1 E. apply consume_keeps in E. destruct E as (R & (S1 & S2 & S3 & S4 & S5 & S6) & T & K).
      pose proof (sempred_quiet r i l1) as Q. destruct (sempred r i l1) as [b' l2]. cbn [snd] in Q.
      inversion H; subst b' l'; clear H. destruct Q as ((Q1 & Q2 & Q3 & Q4 & Q5 & Q6 & Q7 & Q8 & Q9) & QT & QK).
      split; [|split; cbn; congruence]. unfold same_place, seek. cbn. rewrite Q1, R.
      destruct (lx_input U l) as [dr ix]; cbn in *. repeat split; congruence.
    - pose proof (sempred_quiet r i l) as Q. destruct (sempred r i l) as [b' l2]. cbn [snd] in Q. intros H. inversion H. subst. exact Q.
  Qed.

  Lemma epsilon_quiet c t cs sp eof l c' cs' l' :
    get_epsilon_target D U a sempred actions_hash c t cs sp eof l = Val (c', cs', l') -> quiet l l'.
  Proof.
    unfold get_epsilon_target. intros H. step H target Et.
    destruct t; try (inversion H; subst; apply quiet_refl).
    - destruct eof; [step H m E|]; inversion H; subst; apply quiet_refl.
    - step H ctx E. inversion H; subst; apply quiet_refl.
    - destruct eof; [step H m E|]; inversion H; subst; apply quiet_refl.
    - step H o E. destruct o; [step H x E'|]; inversion H; subst; apply quiet_refl.
    - destruct eof; [step H m E|]; inversion H; subst; apply quiet_refl.
    - step H bl E. destruct bl as [ok l1]. apply predicate_quiet in E. inversion H; subst. exact E.
  Qed.

  Lemma each_quiet {A} (f : A -> bool * lset * lexer -> outcome (bool * lset * lexer)) xs :
    (forall x r cs l r' cs' l', f x (r, cs, l) = Val (r', cs', l') -> quiet l l') ->
    forall r cs l r' cs' l', closure_each U f xs (r, cs, l) = Val (r', cs', l') -> quiet l l'.
  Proof.
    intros Hf. induction xs as [|x xs IH]; intros r cs l r' cs' l' H; cbn [closure_each] in H.
    - inversion H; subst. apply quiet_refl.
    - step H st E. destruct st as [[r1 cs1] l1]. eapply quiet_trans; [eapply Hf, E | eapply IH, H].
  Qed.

  Lemma closure_quiet fuel : forall sp eof c r cs l r' cs' l',
    closure fuel sp eof c (r, cs, l) = Val (r', cs', l') -> quiet l l'.
  Proof.
    induction fuel as [|fuel IH]; intros sp eof c r cs l r' cs' l' H; [discriminate|].
    cbn [LexerModel.closure] in H. step H state Es.
    assert (Hn : forall H : obindo (if negb (st_eps_only state) && (negb r || negb (lt_passed (c_type c))) then add ctx_hash cs c else Val cs)
        (fun cs => closure_each U (closure_trans D U a sempred actions_hash (closure fuel sp eof) c sp eof) (st_trans state) (r, cs, l)) = Val (r', cs', l'),
        quiet l l').
    { clear H. intros H. step H cs1 Ea. eapply each_quiet; [|exact H]. clear - IH keeps. intros t r cs l r' cs' l' H.
      unfold closure_trans in H. step H ct E. destruct ct as [[c' cs1] l1]. apply epsilon_quiet in E.
      destruct c' as [c'|]; [|inversion H; subst; exact E]. apply IH in H. eapply quiet_trans; eauto. }
    destruct (st_type state); try (exact (Hn H)). clear Hn.
    unfold closure_stop in H. step H ep E1. step H em E2.
    destruct (ep && em). { step H cs1 E3. inversion H; subst. apply quiet_refl. }
    step H rc E3. destruct rc as [r1 cs1].
    destruct (c_ctx c) as [ctx|]; [|inversion H; subst; apply quiet_refl].
    destruct em; [inversion H; subst; apply quiet_refl|].
    eapply each_quiet; [|exact H]. clear - IH. intros i r cs l r' cs' l' H. unfold closure_return in H.
    step H rs E. destruct (rs =? EMPTY_RETURN_STATE); [inversion H; subst; apply quiet_refl|].
    step H nc E'. step H st E''. eapply IH, H.
  Qed.

  Lemma start_quiet fuel ts : forall i cs l cs' l',
    start_loop D U a sempred ctx_hash actions_hash fuel ts i cs l = Val (cs', l') -> quiet l l'.
  Proof.
    induction ts as [|t ts IH]; intros i cs l cs' l' H; cbn [start_loop] in H; [inversion H; subst; apply quiet_refl|].
    step H st E. destruct st as [[r cs1] l1]. apply closure_quiet in E. apply IH in H. eapply quiet_trans; eauto.
  Qed.

  Lemma reach_trans_quiet fuel si t c r ts : forall cs l r' cs' l',
    reach_trans D U a sempred ctx_hash actions_hash fuel si t c r ts cs l = Val (r', cs', l') -> quiet l l'.
  Proof.
    induction ts as [|tr ts IH]; intros cs l r' cs' l' H; cbn [reach_trans] in H; [inversion H; subst; apply quiet_refl|].
    step H tg E. destruct tg as [tg|]; [|eapply IH, H].
    step H st Es. step H hit Eh. destruct hit as [[hit cs1] l1]. apply closure_quiet in Eh.
    destruct hit; [inversion H; subst; exact Eh|]. apply IH in H. eapply quiet_trans; eauto.
  Qed.
  Lemma reach_quiet fuel si t cl : forall sk cs l cs' l',
    reach_loop D U a sempred ctx_hash actions_hash fuel si t cl sk cs l = Val (cs', l') -> quiet l l'.
  Proof.
    induction cl as [|c cl IH]; intros sk cs l cs' l' H; cbn [reach_loop] in H; [inversion H; subst; apply quiet_refl|].
    destruct ((c_alt c =? sk) && lt_passed (c_type c)); [eapply IH, H|].
    step H st Es. step H hit Eh. destruct hit as [[hit cs1] l1]. apply reach_trans_quiet in Eh. apply IH in H.
    eapply quiet_trans; eauto.
  Qed.
  Lemma target_quiet fuel si d s t l d' s' l' :
    compute_target_state D U a sempred ctx_hash actions_hash configs_hash fuel si d s t l = Val (d', s', l') -> quiet l l'.
  Proof.
    unfold compute_target_state. intros H. step H st Es. step H rl Er. destruct rl as [reach l1].
    unfold get_reachable_config_set in Er. apply reach_quiet in Er.
    destruct (configs reach).
    - step H d1 E. inversion H; subst. exact Er.
    - step H dt E. destruct dt as [d1 to]. step H d2 E'. inversion H; subst. exact Er.
  Qed.

  (** ** Where the lexer stands *)
  Variables raw cs : list Z.
  Variable pos : nat -> Z.
  Hypothesis TS : text_source D raw cs pos.

  Definition stands_at (k : nat) (i : istream) (p : Z * Z) : Prop :=
    (k <= length cs)%nat /\ i = IStream raw (pos k) /\ p = place_after (firstn k cs).
  Definition at_char (k : nat) (l : lexer) : Prop := stands_at k (lx_input U l) (lx_line U l, lx_column U l).

  Lemma at_char_place k l l' : at_char k l -> same_place l l' -> at_char k l'.
  Proof. intros (A & B & C) (P1 & P2 & P3 & _). unfold at_char, stands_at. rewrite P1, P2, P3. auto. Qed.

  Lemma pos_inj i j : (i <= length cs)%nat -> (j <= length cs)%nat -> pos i = pos j -> i = j.
  Proof.
    intros Hi Hj E. pose proof (pr_mono _ _ _ _ (source_presents _ _ _ _ TS)) as M.
    destruct (lt_eq_lt_dec i j) as [[L|L]|L]; auto.
    - specialize (M i j ltac:(lia)). lia.
    - specialize (M j i ltac:(lia)). lia.
  Qed.
  Lemma pos_le i j : (i <= j <= length cs)%nat -> pos i <= pos j.
  Proof.
    intros H. destruct (Nat.eq_dec i j) as [->|N]; [lia|].
    pose proof (pr_mono _ _ _ _ (source_presents _ _ _ _ TS) i j ltac:(lia)). lia.
  Qed.

  Lemma la_here k : (k <= length cs)%nat ->
    la D (IStream raw (pos k)) 1 = Ok (match nth_error cs k with Some c => c | None => EOF end).
  Proof.
    intros Hk. rewrite (la_at D raw cs pos (source_presents _ _ _ _ TS)) by lia. unfold la_spec, symbol_at.
    replace (0 <? 1) with true by reflexivity. replace (Z.of_nat k + 1 - 1) with (Z.of_nat k) by lia.
    rewrite zget_nth. reflexivity.
  Qed.
  Lemma char_not_eof k c : nth_error cs k = Some c -> c <> EOF.
  Proof.
    intros H. apply nth_error_In in H. pose proof (source_no_eof _ _ _ _ TS) as F. rewrite Forall_forall in F.
    specialize (F c H). unfold EOF. lia.
  Qed.

  Lemma consume_ok k l : at_char k l -> (k < length cs)%nat -> exists l', sim_consume D U l = Val l' /\ at_char (S k) l'.
  Proof.
    intros (Hk & Hi & Hp) Hlt. destruct (nth_error cs k) as [c|] eqn:Ec; [|apply nth_error_None in Ec; lia].
    unfold sim_consume. rewrite Hi, (la_here k Hk), Ec. cbn [lift obindo].
    assert (Ei : lx_input U (if c =? NEWLINE then with_pos U l (lx_line U l + 1) 0 else with_pos U l (lx_line U l) (lx_column U l + 1)) = IStream raw (pos k))
      by (destruct (c =? NEWLINE); cbn; assumption).
    rewrite Ei, (consume_at D raw cs pos (source_presents _ _ _ _ TS)) by lia. cbn [lift obindo].
    eexists. split; [reflexivity|]. split; [lia|].
    rewrite (firstn_S_nth cs k c Ec), place_snoc, <- Hp. unfold advance.
    destruct (c =? NEWLINE); cbn; auto.
  Qed.
  Lemma consume_end' l : at_char (length cs) l -> forall l', sim_consume D U l = Val l' -> False.
  Proof.
    intros (Hk & Hi & Hp) l' H. unfold sim_consume in H. step H ch E. step H i E'. apply lift_val in E'.
    assert (Ei : lx_input U (if ch =? NEWLINE then with_pos U l (lx_line U l + 1) 0 else with_pos U l (lx_line U l) (lx_column U l + 1)) = lx_input U l)
        by (destruct (ch =? NEWLINE); reflexivity).
    rewrite Ei, Hi, (consume_end D raw cs pos (source_presents _ _ _ _ TS)) in E'. discriminate.
  Qed.
  Lemma consume_at_char k l l' : at_char k l -> sim_consume D U l = Val l' -> at_char (S k) l' /\ (k < length cs)%nat.
  Proof.
    intros H E. destruct (le_lt_dec (length cs) k) as [L|L].
    - exfalso. assert (k = length cs) by (destruct H; lia). subst k. eapply consume_end'; eauto.
    - destruct (consume_ok k l H L) as (l1 & E1 & A1). rewrite E in E1. inversion E1; subst. auto.
  Qed.

  (** a captured state stands at a character between [lo] and [hi] *)
  Definition captured (lo hi : nat) (p : sim_state) : Prop :=
    sa_state p <> None -> exists j, (lo <= j <= hi)%nat /\ stands_at j (IStream raw (sa_index p)) (sa_line p, sa_column p).
  Lemma captured_mono lo hi hi' p : (hi <= hi')%nat -> captured lo hi p -> captured lo hi' p.
  Proof. intros L H N. destruct (H N) as (j & J & S). exists j. split; [lia | exact S]. Qed.

  Lemma capture_ok d l s p b p' k lo : at_char k l -> (lo <= k)%nat -> captured lo k p ->
    capture_sim_state U d l s p = Val (b, p') -> captured lo k p'.
  Proof.
    intros A L C H. unfold capture_sim_state in H. step H st E. destruct (d_accept st); inversion H; subst; auto.
    intros _. exists k. cbn. split; [lia|]. destruct A as (A1 & A2 & A3). unfold stands_at. rewrite A2. cbn. auto.
  Qed.

  Lemma exec_loop_place fuel si n : forall d s symbol p l k lo symbol' d' p' l',
    at_char k l -> (lo <= k)%nat -> captured lo k p ->
    exec_loop D U a sempred ctx_hash actions_hash configs_hash fuel n si d s symbol p l = Val (symbol', d', p', l') ->
    exists k', (k <= k')%nat /\ at_char k' l' /\ captured lo k' p' /\ same_rest l l' /\ lx_type U l' = lx_type U l /\ lx_token U l' = lx_token U l.
  Proof.
    induction n as [|n IH]; intros d s symbol p l k lo symbol' d' p' l' A L C H; [discriminate|].
    cbn [exec_loop] in H. step H exi Ee. step H dt Ed. destruct dt as [[d1 target] l1].
    assert (Q : quiet l l1).
    { destruct exi; [inversion Ed; subst; apply quiet_refl|]. eapply target_quiet, Ed. }
    assert (A1 : at_char k l1) by (eapply at_char_place; [exact A | apply Q]).
    assert (R1 : same_rest l l1) by (destruct Q as ((_ & _ & _ & Q) & _); exact Q).
    destruct Q as (_ & QT & QK).
    destruct (target =? ERROR_DFA_STATE_REF).
    { inversion H; subst. exists k. repeat (split; auto). }
    step H l2 El. step H cp Ec. destruct cp as [b p2].
    assert (G : exists k2, (k <= k2)%nat /\ at_char k2 l2 /\ same_rest l1 l2 /\ lx_type U l2 = lx_type U l1 /\ lx_token U l2 = lx_token U l1).
    { destruct (symbol =? EOF).
      - inversion El; subst. exists k. unfold same_rest. auto 20.
      - destruct (consume_keeps _ _ El) as (_ & R & T & K). destruct (consume_at_char _ _ _ A1 El) as (A2 & _).
        exists (S k). auto 10. }
    destruct G as (k2 & L2 & A2 & R2 & T2 & K2).
    assert (C2 : captured lo k2 p2).
    { eapply capture_ok; [exact A2 | lia | | exact Ec]. eapply captured_mono; [|exact C]. lia. }
    assert (R12 : same_rest l l2) by (unfold same_rest in *; intuition congruence).
    destruct (b && (symbol =? EOF)).
    { inversion H; subst. exists k2. repeat (split; auto); try congruence; apply R12. }
    step H sy Es. destruct (IH _ _ _ _ _ k2 lo _ _ _ _ A2 ltac:(lia) C2 H) as (k' & L' & A' & C' & R' & T' & K').
    exists k'. split; [lia|]. repeat (split; auto); try congruence; unfold same_rest in *; intuition congruence.
  Qed.

  (** ** Tokens *)
  Lemma placed_place start stop (l : lexer) x : (forall r i l, same_place l (action r i l)) ->
    is_index (lx_input U l) = stop -> same_place l (as_placed action start stop l x).
  Proof.
    intros K E. assert (A : forall x l, same_place l (execute_action U action x l)).
    { clear - K. induction x; intros l; cbn [execute_action]; try (destruct l; repeat split; fail).
      - apply K.
      - unfold pop_mode. destruct (vec_pop _) as [[st m]|]; destruct l; repeat split.
      - apply IHx. }
    unfold as_placed. destruct (A x (move_to l (place_of start stop x))) as (A1 & A2 & A3 & A4 & A5 & A6 & A7 & A8 & A9).
    unfold same_place. cbn [move_to with_input lx_input lx_line lx_column lx_start lx_start_line lx_start_column lx_hit_eof lx_errors lx_log] in *.
    split; [rewrite A1; cbn [data_raw]; rewrite <- E; destruct (lx_input U l); reflexivity | repeat (split; [assumption|]); assumption].
  Qed.
  Lemma execute_place e l start : same_place l (execute U action e l start).
  Proof.
    destruct keeps as (K & _ & _). rewrite (execute_ok action) by (intros r i l0; apply K).
    assert (G : forall xs l0, is_index (lx_input U l0) = is_index (lx_input U l) ->
              same_place l0 (fold_left (as_placed action start (is_index (lx_input U l))) xs l0)).
    { induction xs as [|x xs IH]; intros l0 E; cbn [fold_left]; [apply place_refl|].
      eapply place_trans; [apply placed_place; [exact K | exact E] | apply IH, move_index]. }
    apply G. reflexivity.
  Qed.
  Lemma execute_token e l start : no_own_tokens action -> lx_token U (execute U action e l start) = lx_token U l.
  Proof.
    intros N. destruct keeps as (K & _ & _). rewrite (execute_ok action) by (intros r i l0; apply K).
    generalize (is_index (lx_input U l)) as stop. revert l. induction (ex_actions e) as [|x xs IH]; intros l stop; cbn [fold_left]; [reflexivity|].
    rewrite IH. unfold as_placed. assert (A : forall x l, lx_token U (execute_action U action x l) = lx_token U l).
    { clear - N. induction x; intros l; cbn [execute_action]; try (destruct l; reflexivity).
      - apply N.
      - unfold pop_mode. destruct (vec_pop _) as [[st m]|]; destruct l; reflexivity.
      - apply IHx. }
    cbn. rewrite A. reflexivity.
  Qed.

  Lemma exec_atn_place fuel si s d p l k r d' p' l' : at_char k l -> sa_state p = None ->
    exec_atn D U a action sempred ctx_hash actions_hash configs_hash fuel si s d p l = Val (r, d', p', l') ->
    exists k', (k <= k')%nat /\ at_char k' l' /\ same_rest l l' /\
      (forall e, r = inr e -> lx_type U l' = lx_type U l) /\ (no_own_tokens action -> lx_token U l' = lx_token U l).
  Proof.
    intros A N H. unfold exec_atn in H. step H bp Eb. destruct bp as [b p1]. step H sy Es. step H lo El.
    destruct lo as [[[sy2 d2] p2] l2]. step H fa Ef. destruct fa as [r3 l3]. inversion H; subst; clear H.
    assert (C1 : captured k k p1).
    { eapply capture_ok; [exact A | lia | | exact Eb]. intros X. congruence. }
    destruct (exec_loop_place _ _ _ _ _ _ _ _ k k _ _ _ _ A (le_n _) C1 El) as (k2 & L2 & A2 & C2 & R2 & T2 & K2).
    unfold fail_or_accept in Ef. destruct (sa_state p') as [q|] eqn:Eq.
    - destruct (C2 ltac:(congruence)) as (j & J & S). step Ef st Est. inversion Ef; subst; clear Ef.
      set (l4 := accept U p' l2) in *.
      assert (A4 : at_char j l4).
      { destruct A2 as (_ & I2 & _). destruct S as (S1 & S2 & S3). unfold at_char, stands_at, l4, accept. cbn.
        unfold seek. rewrite I2. cbn. auto. }
      assert (P : same_place l4 (match d_exec st with Some e => execute U action e l4 si | None => l4 end)).
      { destruct (d_exec st); [apply execute_place | apply place_refl]. }
      exists j. split; [lia|]. split; [eapply at_char_place; eauto|].
      split; [|split].
      + assert (X : same_rest l l4) by exact R2. clearbody l4.
        generalize dependent (match d_exec st with Some e => execute U action e l4 si | None => l4 end). intros l5 (_ & _ & _ & P).
        unfold same_rest in *. intuition congruence.
      + intros e X. discriminate.
      + intros NO. assert (X : lx_token U l4 = lx_token U l) by (unfold l4, accept; cbn; exact K2).
        destruct (d_exec st); [rewrite execute_token by exact NO|]; exact X.
    - destruct ((sy2 =? EOF) && _); inversion Ef; subst; exists k2; (split; [lia|]); split; auto.
  Qed.

  Lemma match_place fuel mode l s k r l' s' : at_char k l ->
    match_token D U a action sempred ctx_hash actions_hash configs_hash fuel mode l s = Val (r, l', s') ->
    exists k', (k <= k')%nat /\ at_char k' l' /\ same_rest l l' /\
      (forall e, r = inr e -> lx_type U l' = lx_type U l) /\ (no_own_tokens action -> lx_token U l' = lx_token U l).
  Proof.
    intros A H. unfold match_token in H. destruct (vget (sm_dfas s) mode) as [d|].
    2: { inversion H; subst. exists k. unfold same_rest. auto 20. }
    step H rd Er. destruct rd as [[[r1 d1] p1] l1]. step H dfas Ed. inversion H; subst; clear H.
    destruct (s0 d) as [q|].
    - eapply (exec_atn_place _ _ _ _ (sim_reset (sm_prev_accept s))); [exact A | reflexivity | exact Er].
    - unfold match_atn in Er. destruct (vget (mode_to_start_state a) mode) as [ss|].
      2: { inversion Er; subst. exists k. unfold same_rest. auto 20. }
      step Er st Est. step Er cl Ecl. destruct cl as [c0 l2]. step Er dn Edn. destruct dn as [d2 nx].
      unfold compute_start_state in Ecl. apply start_quiet in Ecl. destruct Ecl as (P & T & K).
      destruct (exec_atn_place _ _ _ _ (sim_reset (sm_prev_accept s)) _ _ _ _ _ _ (at_char_place _ _ _ A P) eq_refl Er) as (k' & L & A' & R & T' & K').
      exists k'. split; [exact L|]. split; [exact A'|]. split; [|split].
      + destruct P as (_ & _ & _ & P). unfold same_rest in *. intuition congruence.
      + intros e X. rewrite (T' e X). exact T.
      + intros NO. rewrite (K' NO). exact K.
  Qed.

  (** reading back a piece of the input *)
  Lemma range_sub x y t : d_slice D raw x y = Ok t -> t = sub_list raw x y.
  Proof.
    destruct TS as [cs0 F|cs0 F]; cbn; unfold slice_range, str_range; intros H;
      match type of H with (if ?b then _ else _) = _ => destruct b end; inversion H; auto.
  Qed.
  Lemma range_from_sub x t : d_slice_from D raw x = Ok t -> t = sub_list raw x (zlen raw).
  Proof.
    destruct TS as [cs0 F|cs0 F]; cbn; unfold slice_range, str_range; intros H;
      match type of H with (if ?b then _ else _) = _ => destruct b end; inversion H; auto.
  Qed.
  Lemma pos_len : pos (length cs) = zlen raw.
  Proof. apply (pr_len _ _ _ _ (source_presents _ _ _ _ TS)). Qed.
  Lemma text_through i k q t : (k <= length cs)%nat ->
    get_text D (IStream raw q) i (pos k) = Ok t -> t = sub_list raw i (pos (Nat.min (S k) (length cs))).
  Proof.
    intros Hk H. unfold get_text in H. cbn [data_raw] in H.
    rewrite (pr_offset _ _ _ _ (source_presents _ _ _ _ TS)) in H by exact Hk.
    replace (0 <=? Z.of_nat k + 1) with true in H by lia. cbn [andb] in H. change (zlen cs) with (Z.of_nat (length cs)) in H.
    destruct (Nat.eq_dec k (length cs)) as [->|N].
    - replace (Z.of_nat (length cs) + 1 <=? Z.of_nat (length cs)) with false in H by lia.
      rewrite pos_len in H. replace (zlen raw <? zlen raw) with false in H by lia.
      rewrite Nat.min_r by lia. rewrite pos_len. apply range_from_sub, H.
    - replace (Z.of_nat k + 1 <=? Z.of_nat (length cs)) with true in H by lia. cbv zeta in H.
      replace (Z.to_nat (Z.of_nat k + 1)) with (S k) in H by lia. rewrite Nat.min_l by lia.
      destruct (pos (S k) <? zlen raw) eqn:E; [apply range_sub, H|].
      assert (pos (S k) = zlen raw) by (pose proof (pos_le (S k) (length cs) ltac:(lia)); rewrite pos_len in *; lia).
      rewrite H0. apply range_from_sub, H.
  Qed.

  Lemma recover_place k l l' : at_char k l -> recover D U l = Val l' ->
    at_char (Nat.min (S k) (length cs)) l' /\ same_rest l l' /\ lx_type U l' = lx_type U l /\ lx_token U l' = lx_token U l.
  Proof.
    intros A H. unfold recover in H. destruct A as (A1 & A2 & A3). step H ch E. apply lift_val in E.
    rewrite A2, (la_here k A1) in E. inversion E; subst ch; clear E.
    destruct (nth_error cs k) as [c|] eqn:Ec.
    - destruct (Z.eqb_spec c EOF) as [->|N]; [exfalso; eapply char_not_eof; eauto|].
      assert (k < length cs)%nat by (apply nth_error_Some; congruence). rewrite Nat.min_l by lia.
      pose proof (consume_at_char k l l' (conj A1 (conj A2 A3)) H) as (B & _).
      destruct (consume_keeps _ _ H) as (_ & R & T & K). auto.
    - apply nth_error_None in Ec. rewrite Z.eqb_refl in H. inversion H; subst. rewrite Nat.min_r by lia.
      assert (k = length cs) by lia. subst k. unfold same_rest. split; [unfold at_char, stands_at; auto | auto 20].
  Qed.

  (** ** The log *)
  Fixpoint residual (open : option Z) (log : list matched) : option Z :=
    match log with
    | [] => open
    | m :: log =>
        let from := match open with Some f => f | None => m_from m end in
        if negb (m_failed m) && (m_type m =? -2) then residual (Some from) log else residual None log
    end.
  Lemma pieces_snoc log m : forall open,
    pieces open (log ++ [m]) = pieces open log ++
      (if negb (m_failed m) && (m_type m =? -2) then []
       else [Piece (match residual open log with Some f => f | None => m_from m end) (m_to m) (fate_of m) (m_type m)]).
  Proof.
    induction log as [|x log IH]; intros open; cbn [pieces residual app].
    - destruct (negb (m_failed m) && (m_type m =? -2)); reflexivity.
    - destruct (negb (m_failed x) && (m_type x =? -2)); rewrite IH; reflexivity.
  Qed.
  Lemma residual_snoc log m : forall open,
    residual open (log ++ [m]) =
      if negb (m_failed m) && (m_type m =? -2)
      then Some (match residual open log with Some f => f | None => m_from m end) else None.
  Proof.
    induction log as [|x log IH]; intros open; cbn [residual app].
    - destruct (negb (m_failed m) && (m_type m =? -2)); reflexivity.
    - destruct (negb (m_failed x) && (m_type x =? -2)); rewrite IH; reflexivity.
  Qed.
  Lemma contiguous_snoc k log n n' m : contiguous pos k log n -> (n <= n')%nat -> m_from m = pos n -> m_to m = pos n' ->
    contiguous pos k (log ++ [m]) n'.
  Proof.
    induction 1 as [k|k k1 n m0 log L E1 E2 C IH]; intros; cbn [app].
    - econstructor; eauto. constructor.
    - econstructor; eauto.
  Qed.

  Lemma pieces_tile k log n : contiguous pos k log n -> forall open k0,
    match open with Some f => f = pos k0 /\ (k0 <= k)%nat | None => k0 = k end ->
    residual open log = None -> tiles pos k0 (pieces open log) n.
  Proof.
    induction 1 as [k|k k' n m log L E1 E2 C IH]; intros open k0 O R; cbn [pieces residual] in *.
    - destruct open; [discriminate|]. subst k0. constructor.
    - assert (F : match open with Some f => f | None => m_from m end = pos k0 /\ (k0 <= k)%nat).
      { destruct open; [exact O|]. subst k0. split; [exact E1 | lia]. }
      destruct F as (F & Lk). destruct (negb (m_failed m) && (m_type m =? -2)).
      + apply IH; [|exact R]. split; [exact F | lia].
      + apply tiles_cons with k'; [lia | exact F | exact E2|]. apply IH; [reflexivity | exact R].
  Qed.
  Lemma tiles_le k ps n : tiles pos k ps n -> (k <= n)%nat.
  Proof. induction 1; lia. Qed.
  Lemma tiles_from k ps n : tiles pos k ps n -> (n <= length cs)%nat -> forall p, In p ps -> pos k <= p_from p /\ p_from p <= p_to p.
  Proof.
    induction 1 as [k|k k' n p ps L E1 E2 T IH]; intros Ln q Q; [destruct Q|].
    pose proof (tiles_le _ _ _ T). pose proof (pos_le k k' ltac:(lia)). destruct Q as [<-|Q]; [lia|].
    specialize (IH Ln q Q). lia.
  Qed.
  Lemma tiles_sorted k ps n : tiles pos k ps n -> (n <= length cs)%nat -> StronglySorted (fun p q => p_to p <= p_from q) ps.
  Proof.
    induction 1 as [k|k k' n p ps L E1 E2 T IH]; intros Ln; constructor; auto.
    apply Forall_forall. intros q Q. destruct (tiles_from _ _ _ T Ln q Q). lia.
  Qed.
  Lemma tiles_cover k ps n : tiles pos k ps n -> (n <= length cs)%nat -> forall i, (k <= i < n)%nat ->
    exists j p, nth_error ps j = Some p /\ covers p (pos i) /\ forall j' p', nth_error ps j' = Some p' -> covers p' (pos i) -> j' = j.
  Proof.
    pose proof (pr_mono _ _ _ _ (source_presents _ _ _ _ TS)) as M.
    induction 1 as [k|k k' n p ps L E1 E2 T IH]; intros Ln i Hi; [lia|]. pose proof (tiles_le _ _ _ T) as L'.
    destruct (le_lt_dec k' i) as [Le|Lt].
    - destruct (IH Ln i ltac:(lia)) as (j & q & Hj & Hq & U1). exists (S j), q. split; [exact Hj|]. split; [exact Hq|].
      intros [|j'] p' Hj' Hp'; [|f_equal; eapply U1; eauto]. cbn in Hj'. inversion Hj'; subst p'. unfold covers in Hp'.
      pose proof (pos_le k' i ltac:(lia)). lia.
    - exists 0%nat, p. split; [reflexivity|]. split.
      + unfold covers. rewrite E1, E2. pose proof (pos_le k i ltac:(lia)). specialize (M i k' ltac:(lia)). lia.
      + intros [|j'] p' Hj' Hp'; [reflexivity|]. exfalso. cbn in Hj'. apply nth_error_In in Hj'.
        destruct (tiles_from _ _ _ T Ln p' Hj') as (X & _). unfold covers in Hp'. specialize (M i k' ltac:(lia)). lia.
  Qed.
  Lemma filter_sorted {A} (R : A -> A -> Prop) f xs : StronglySorted R xs -> StronglySorted R (filter f xs).
  Proof.
    induction 1 as [|x xs S IH F]; cbn; [constructor|]. destruct (f x); [|exact IH]. constructor; [exact IH|].
    rewrite Forall_forall in *. intros y Y. apply filter_In in Y. apply F, Y.
  Qed.
  Lemma tokens_sorted ts ps : Forall2 (token_of cs pos) ts ps -> StronglySorted (fun p q => p_to p <= p_from q) ps ->
    StronglySorted (fun t t' => FactoryModel.stop t < FactoryModel.start t') ts.
  Proof.
    induction 1 as [|t p ts ps (T1 & T2 & _) T IH]; intros S; [constructor|]. inversion S as [|? ? S' F]; subst. constructor; [auto|].
    clear - T T2 F. induction T as [|t' p' ts ps (X & _) T IH]; constructor; inversion F; subst; [lia | auto].
  Qed.

  Lemma tiles_ends k ps n : tiles pos k ps n -> forall p, In p ps -> exists i j, (i <= j <= n)%nat /\ p_from p = pos i /\ p_to p = pos j.
  Proof.
    induction 1 as [k|k k' n p ps L E1 E2 T IH]; intros q Q; [destruct Q|]. destruct Q as [<-|Q]; [|auto].
    exists k, k'. split; [apply tiles_le in T; lia | auto].
  Qed.
  Lemma made_ends k ps n : tiles pos k ps n -> (n <= length cs)%nat -> forall ts, Forall2 (token_of cs pos) ts (filter is_emitted ps) ->
    forall t, In t ts -> FactoryModel.start t <= FactoryModel.stop t ->
    exists i j, (i <= j < length cs)%nat /\ FactoryModel.start t = pos i /\ FactoryModel.stop t = pos (S j) - 1.
  Proof.
    intros T Ln ts F t I Le. assert (P : exists p, In p ps /\ token_of cs pos t p).
    { assert (X : exists p, In p (filter is_emitted ps) /\ token_of cs pos t p).
      { clear - F I. induction F as [|t' p ts' ps' H F IH]; [destruct I|].
        destruct I as [<-|I]; [exists p; split; [left; reflexivity | exact H]|].
        destruct (IH I) as (q & P & Q). exists q. split; [right; exact P | exact Q]. }
      destruct X as (p & P & Q). apply filter_In in P. exists p. tauto. }
    destruct P as (p & P & T1 & T2 & _). destruct (tiles_ends _ _ _ T p P) as (i & j & L & E1 & E2).
    exists i, (pred j). destruct (Nat.eq_dec i j) as [->|]; [exfalso; rewrite T1, T2, E1, E2 in Le; lia|].
    replace (S (pred j)) with j by lia. split; [lia|]. split; congruence.
  Qed.

  Hypothesis no_tokens : no_own_tokens action.

  (** neither matching nor the hook before [emit] sets the text of the token *)
  Definition keeps_text : Prop :=
    (forall fuel mode l s r l' s', match_token D U a action sempred ctx_hash actions_hash configs_hash fuel mode l s = Val (r, l', s') ->
       lx_text U l' = lx_text U l) /\ (forall l, lx_text U (before_emit l) = lx_text U l).
  Definition own_text (t : FactoryModel.token) : Prop :=
    FactoryModel.start t <= FactoryModel.stop t -> FactoryModel.stop t < zlen raw ->
    exists q, get_text D (IStream raw q) (FactoryModel.start t) (FactoryModel.stop t) = Ok (FactoryModel.tk_text t).
  Definition own_type (t : FactoryModel.token) (p : piece) : Prop :=
    (forall l, lx_type U (before_emit l) = lx_type U l) -> FactoryModel.token_type t = p_type p.
  Lemma recover_text l l' : recover D U l = Val l' -> lx_text U l' = lx_text U l.
  Proof.
    unfold recover. intros H. step H ch E. destruct (ch =? EOF); [inversion H; reflexivity|]. unfold sim_consume in H.
    step H ch' E'. step H i Ei. inversion H; subst. destruct (ch' =? NEWLINE); reflexivity.
  Qed.

  Definition well_reported (l : lexer) : Prop :=
    Forall2 (report_of raw cs pos) (lx_errors U l) (filter is_dropped (pieces None (lx_log U l))).
  Definition start_known (k : nat) (l : lexer) : Prop :=
    exists k0, (k0 <= k)%nat /\ lx_start U l = pos k0 /\ (lx_start_line U l, lx_start_column U l) = place_after (firstn k0 cs).

  Lemma located_start k l : (k <= length cs)%nat -> start_known k l -> located cs pos (lx_start U l) (lx_start_line U l) (lx_start_column U l).
  Proof.
    intros Hk (k0 & L & E & P). exists k0. split; [lia|]. split; [exact E|].
    assert (E1 : lx_start_line U l = fst (place_after (firstn k0 cs))) by (rewrite <- P; reflexivity).
    assert (E2 : lx_start_column U l = snd (place_after (firstn k0 cs))) by (rewrite <- P; reflexivity).
    rewrite E1, E2. split; [apply place_line | apply place_column].
  Qed.
  Lemma located_here k l : at_char k l -> located cs pos (pos k) (lx_line U l) (lx_column U l).
  Proof.
    intros (L & _ & P). exists k. split; [exact L|]. split; [reflexivity|].
    assert (E1 : lx_line U l = fst (place_after (firstn k cs))) by (rewrite <- P; reflexivity).
    assert (E2 : lx_column U l = snd (place_after (firstn k cs))) by (rewrite <- P; reflexivity).
    rewrite E1, E2. split; [apply place_line | apply place_column].
  Qed.

  Lemma inner_ok fuel n : forall l s k b l' s',
    at_char k l -> contiguous pos 0 (lx_log U l) k -> start_known k l -> lx_token U l = None -> well_reported l ->
    lx_start U l = match residual None (lx_log U l) with Some f => f | None => pos k end ->
    (lx_hit_eof U l = true -> k = length cs) ->
    inner_loop D U a action sempred ctx_hash actions_hash configs_hash fuel n l s = Val (b, l', s') ->
    exists k' f, at_char k' l' /\ contiguous pos 0 (lx_log U l') k' /\ lx_token U l' = None /\ well_reported l' /\
      start_known k' l' /\ (lx_hit_eof U l' = true -> k' = length cs) /\
      residual None (lx_log U l') = None /\
      pieces None (lx_log U l') = pieces None (lx_log U l) ++ [Piece (lx_start U l') (pos k') f (lx_type U l')] /\
      (b = true <-> f = Emitted) /\ (keeps_text -> lx_text U l = None -> lx_text U l' = None).
  Proof.
    induction n as [|n IH]; intros l s k b l' s' A C SK TK W ST HE H; [discriminate|].
    cbn [inner_loop] in H. step H ml Em. destruct ml as [[r l1] s1].
    assert (A0 : at_char k (with_type U l TOKEN_INVALID_TYPE)) by exact A.
    destruct (match_place _ _ _ _ _ _ _ _ A0 Em) as (k1 & L1 & A1 & R1 & T1 & K1). specialize (K1 no_tokens).
    step H tyl Et. destruct tyl as [ttype l2].
    assert (G : exists k2, (k1 <= k2)%nat /\ at_char k2 l2 /\ lx_start U l2 = lx_start U l /\ lx_start_line U l2 = lx_start_line U l /\
       lx_start_column U l2 = lx_start_column U l /\ lx_hit_eof U l2 = lx_hit_eof U l /\ lx_log U l2 = lx_log U l /\ lx_token U l2 = None /\ (keeps_text -> lx_text U l2 = lx_text U l) /\
       match r with
       | inl _ => lx_errors U l2 = lx_errors U l
       | inr _ => ttype = LEXER_SKIP /\ lx_type U l2 = TOKEN_INVALID_TYPE /\ exists rep, lx_errors U l2 = lx_errors U l ++ [rep] /\
           (forall ty, report_of raw cs pos rep (Piece (lx_start U l) (pos k2) Dropped ty))
       end).
    { destruct R1 as (R1 & R2 & R3 & R4 & R5 & R6). cbn in R1, R2, R3, R4, R5, R6, K1.
      destruct r as [t|e].
      - inversion Et; subst. exists k1. split; [lia|]. split; [exact A1|]. do 6 (split; [congruence|]). split; [|congruence]. intros (KT & _). apply (KT _ _ _ _ _ _ _ Em).
      - step Et l3 En. step Et l4 Er. inversion Et; subst; clear Et. unfold notify_listeners in En.
        step En txt Ex. apply lift_val in Ex. inversion En; subst l3; clear En.
        assert (A3 : at_char k1 (with_errors U l1 (lx_errors U l1 ++ [(lx_start_line U l1, lx_start_column U l1, txt)]))) by exact A1.
        destruct (recover_place _ _ _ A3 Er) as (A4 & (Q1 & Q2 & Q3 & Q4 & Q5 & Q6) & Q7 & Q8). cbn in Q1, Q2, Q3, Q4, Q5, Q6, Q7, Q8.
        destruct A1 as (B1 & B2 & B3). exists (Nat.min (S k1) (length cs)). split; [lia|]. split; [exact A4|].
        do 6 (split; [congruence|]). split; [intros (KT & _); rewrite (recover_text _ _ Er); apply (KT _ _ _ _ _ _ _ Em)|]. split; [reflexivity|]. split; [rewrite Q7; apply (T1 e eq_refl)|].
        eexists. split; [rewrite Q5, R5; reflexivity|]. intros ty. cbn [report_of p_from p_to]. split.
        + rewrite R2, R3. eapply located_start; [|exact SK]. destruct A; auto.
        + unfold get_char_index in Ex. rewrite B2 in Ex. cbn [is_index] in Ex.
          apply text_through in Ex; [|exact B1]. rewrite R1 in Ex. exact Ex. }
    destruct G as (k2 & L2 & A2 & G1 & G2 & G3 & G4 & G5 & G6 & GT & G7).
    step H c Ec. apply lift_val in Ec. pose proof A2 as (B1 & B2 & B3). rewrite B2, (la_here k2 B1) in Ec. inversion Ec; subst c; clear Ec.
    set (c := match nth_error cs k2 with Some c => c | None => EOF end) in *.
    set (l3 := if c =? EOF then with_hit_eof U l2 else l2) in *.
    assert (E3 : lx_input U l3 = lx_input U l2 /\ lx_line U l3 = lx_line U l2 /\ lx_column U l3 = lx_column U l2 /\ lx_type U l3 = lx_type U l2 /\
       lx_start U l3 = lx_start U l2 /\ lx_start_line U l3 = lx_start_line U l2 /\ lx_start_column U l3 = lx_start_column U l2 /\
       lx_errors U l3 = lx_errors U l2 /\ lx_log U l3 = lx_log U l2 /\ lx_token U l3 = lx_token U l2 /\
       (lx_hit_eof U l3 = true -> k2 = length cs) /\ lx_text U l3 = lx_text U l2).
    { unfold l3. destruct (Z.eqb_spec c EOF) as [Q|Q]; cbn; do 10 (split; [reflexivity|]); (split; [|reflexivity]).
      - intros _. unfold c in Q. destruct (nth_error cs k2) eqn:En; [exfalso; eapply char_not_eof; eauto|]. apply nth_error_None in En. lia.
      - intros X. rewrite G4 in X. specialize (HE X). destruct A as (A & _). destruct A1 as (? & _). lia. }
    clearbody l3. destruct E3 as (E1 & E2 & E3 & E4 & E5 & E6 & E7 & E8 & E9 & E10 & E11 & E12).
    set (l4 := if lx_type U l3 =? TOKEN_INVALID_TYPE then with_type U l3 ttype else l3) in *.
    assert (E : lx_input U l4 = lx_input U l3 /\ lx_line U l4 = lx_line U l3 /\ lx_column U l4 = lx_column U l3 /\
       lx_start U l4 = lx_start U l3 /\ lx_start_line U l4 = lx_start_line U l3 /\ lx_start_column U l4 = lx_start_column U l3 /\
       lx_errors U l4 = lx_errors U l3 /\ lx_log U l4 = lx_log U l3 /\ lx_token U l4 = lx_token U l3 /\ lx_hit_eof U l4 = lx_hit_eof U l3 /\
       (forall e, r = inr e -> lx_type U l4 = LEXER_SKIP) /\ lx_text U l4 = lx_text U l3).
    { unfold l4. destruct (Z.eqb_spec (lx_type U l3) TOKEN_INVALID_TYPE) as [Q|Q]; cbn; do 10 (split; [reflexivity|]); (split; [|reflexivity]); intros e ->.
      - destruct G7 as (-> & _). reflexivity.
      - destruct G7 as (_ & X & _). congruence. }
    clearbody l4. destruct E as (F1 & F2 & F3 & F4 & F5 & F6 & F7 & F8 & F9 & F10 & F11 & F12).
    set (m := Matched (is_index (lx_input U l)) (is_index (lx_input U l4)) (lx_type U l4) (match r with inl _ => false | inr _ => true end)) in *.
    set (l5 := with_log U l4 (lx_log U l4 ++ [m])) in *.
    assert (A5 : at_char k2 l5).
    { unfold l5, at_char, stands_at. cbn. rewrite F1, F2, F3, E1, E2, E3. exact (conj B1 (conj B2 B3)). }
    assert (Mf : m_from m = pos k) by (unfold m; cbn; destruct A as (_ & -> & _); reflexivity).
    assert (Mt : m_to m = pos k2) by (unfold m; cbn; rewrite F1, E1, B2; reflexivity).
    assert (Lg : lx_log U l5 = lx_log U l ++ [m]) by (unfold l5; cbn; congruence).
    assert (C5 : contiguous pos 0 (lx_log U l5) k2).
    { rewrite Lg. eapply contiguous_snoc; eauto. lia. }
    assert (S5 : lx_start U l5 = lx_start U l) by (unfold l5; cbn; congruence).
    assert (SK5 : start_known k2 l5).
    { destruct SK as (k0 & X1 & X2 & X3). exists k0. split; [lia|]. rewrite S5. split; [exact X2|].
      unfold l5; cbn. rewrite F5, F6, E6, E7, G2, G3. exact X3. }
    assert (T5 : lx_token U l5 = None) by (unfold l5; cbn; congruence).
    assert (H5 : lx_hit_eof U l5 = true -> k2 = length cs) by (unfold l5; cbn; rewrite F10; exact E11).
    assert (From : (match residual None (lx_log U l) with Some f => f | None => m_from m end) = lx_start U l).
    { rewrite ST, Mf. reflexivity. }
    assert (Ty : lx_type U l5 = lx_type U l4) by reflexivity.
    assert (W5 : well_reported l5).
    { unfold well_reported. rewrite Lg, pieces_snoc, From, Mt.
      assert (Er : lx_errors U l5 = lx_errors U l2) by (unfold l5; cbn; congruence). rewrite Er.
      rewrite filter_app. destruct r as [t|e].
      - rewrite G7. assert (X : filter is_dropped (if negb (m_failed m) && (m_type m =? -2) then []
                                  else [Piece (lx_start U l) (pos k2) (fate_of m) (m_type m)]) = []).
        { unfold m, fate_of. cbn. destruct (lx_type U l4 =? -2); [reflexivity|]. cbn. destruct (lx_type U l4 =? -3); reflexivity. }
        rewrite X, app_nil_r. exact W.
      - destruct G7 as (_ & _ & rep & -> & R). apply Forall2_app; [exact W|]. cbn. constructor; [|constructor]. apply R. }
    assert (X5 : keeps_text -> lx_text U l = None -> lx_text U l5 = None) by (intros KT X; unfold l5; cbn; rewrite F12, E12, GT by exact KT; exact X).
    rewrite Ty in H.
    destruct (Z.eqb_spec (lx_type U l4) LEXER_SKIP) as [Q|Q].
    { inversion H; subst b l' s'; clear H. exists k2, (fate_of m).
      assert (N2 : negb (m_failed m) && (m_type m =? -2) = false) by (cbn [m m_type]; rewrite Q; apply andb_false_r).
      rewrite S5, Lg, pieces_snoc, residual_snoc, N2, From, Mt.
      rewrite Lg in C5. repeat (split; [assumption || reflexivity|]).
      split; [|exact X5]. split; intros X; [discriminate|]. unfold fate_of in X. cbn in X. rewrite Q in X. destruct r; discriminate. }
    destruct (Z.eqb_spec (lx_type U l4) LEXER_MORE) as [Q'|Q'].
    - destruct r as [t|e]; [|exfalso; apply Q, (F11 e eq_refl)].
      assert (Y2 : negb (m_failed m) && (m_type m =? -2) = true) by (cbn; rewrite Q'; reflexivity).
      assert (ST5 : lx_start U l5 = match residual None (lx_log U l5) with Some f => f | None => pos k2 end).
      { rewrite Lg, residual_snoc, Y2, From. exact S5. }
      destruct (IH _ _ _ _ _ _ A5 C5 SK5 T5 W5 ST5 H5 H) as (k' & f & J1 & J2 & J3 & J4 & J5 & J6 & J7 & J8 & J9 & J10).
      exists k', f. repeat (split; [assumption|]). split; [|split; [exact J9 | auto]].
      rewrite J8, Lg, pieces_snoc, Y2, app_nil_r. reflexivity.
    - inversion H; subst b l' s'; clear H. exists k2, (fate_of m).
      destruct r as [t|e]; [|exfalso; apply Q, (F11 e eq_refl)].
      assert (N2 : negb (m_failed m) && (m_type m =? -2) = false) by (cbn; unfold LEXER_MORE in Q'; lia).
      rewrite S5, Lg, pieces_snoc, residual_snoc, N2, From, Mt.
      rewrite Lg in C5. repeat (split; [assumption || reflexivity|]).
      split; [|exact X5]. split; intros X; [|reflexivity]. unfold fate_of. cbn. unfold LEXER_SKIP in Q. destruct (Z.eqb_spec (lx_type U l4) (-3)); [contradiction | reflexivity].
  Qed.

  (** between two tokens *)
  Definition between (k : nat) (l : lexer) : Prop :=
    at_char k l /\ contiguous pos 0 (lx_log U l) k /\ well_reported l /\ (lx_hit_eof U l = true -> k = length cs) /\
    residual None (lx_log U l) = None.
  Definition emitted (l : lexer) : list piece := filter is_emitted (pieces None (lx_log U l)).

  Lemma outer_ok fuel n : forall l s k l' s', between k l ->
    outer_loop D U a action sempred before_emit ctx_hash actions_hash configs_hash fuel n l s = Val (l', s') ->
    exists k' t, between k' l' /\ lx_token U l' = Some t /\
      ((exists p, emitted l' = emitted l ++ [p] /\ token_of cs pos t p /\ own_type t p /\ (keeps_text -> own_text t)) \/
       (lx_hit_eof U l' = true /\ emitted l' = emitted l /\ eof_token raw cs pos t)).
  Proof.
    induction n as [|n IH]; intros l s k l' s' (A & C & W & HE & RS) H; [discriminate|]. cbn [outer_loop] in H.
    destruct (lx_hit_eof U l) eqn:Eh.
    { step H l1 E. inversion H; subst l1 s'; clear H. unfold emit_eof in E. step E t Et. cbn in Et. inversion Et; subst t; clear Et.
      inversion E; subst l'; clear E. exists k. eexists. split; [|split].
      - unfold between, well_reported, at_char. cbn. rewrite Eh. auto.
      - reflexivity.
      - right. cbn. split; [exact Eh|]. split; [reflexivity|]. specialize (HE eq_refl). subst k.
        unfold eof_token. cbn. pose proof A as (A1 & A2 & A3). unfold get_char_index. rewrite A2. cbn [is_index]. rewrite pos_len.
        repeat (split; [reflexivity|]). rewrite <- pos_len. apply (located_here (length cs)), A. }
    step H bl Eb. destruct bl as [[b l1] s1].
    set (ls := start_token U l) in *.
    assert (As : at_char k ls) by exact A.
    assert (SKs : start_known k ls).
    { exists k. split; [lia|]. unfold ls; cbn. destruct A as (A1 & A2 & A3). rewrite A2. cbn. split; [reflexivity | exact A3]. }
    assert (STs : lx_start U ls = match residual None (lx_log U ls) with Some f => f | None => pos k end).
    { change (lx_log U ls) with (lx_log U l). rewrite RS. unfold ls; cbn. destruct A as (_ & -> & _). reflexivity. }
    destruct (inner_ok fuel fuel ls s k b l1 s1 As C SKs eq_refl W STs ltac:(unfold ls; cbn; rewrite Eh; discriminate) Eb)
      as (k1 & f & J1 & J2 & J3 & J4 & J5 & J6 & J7 & J8 & J9 & J10).
    change (lx_log U ls) with (lx_log U l) in J8.
    assert (B1 : between k1 l1) by (unfold between; auto 10).
    assert (Em : emitted l1 = emitted l ++ filter is_emitted [Piece (lx_start U l1) (pos k1) f (lx_type U l1)]).
    { unfold emitted. rewrite J8, filter_app. reflexivity. }
    destruct b; cbn [negb] in H.
    - rewrite J3 in H. step H l2 Ee. inversion H; subst l2 s'; clear H. unfold emit in Ee.
      assert (F : f = Emitted) by (apply J9; reflexivity). subst f.
      destruct keeps as (_ & KB & _). specialize (KB l1). set (lb := before_emit l1) in *.
      step Ee t Et. inversion Ee; subst l'; clear Ee. apply lift_val in Et. unfold FactoryModel.create in Et.
      destruct (match lx_text U lb with Some t0 => Ok t0 | None => _ end) as [txt|] eqn:Etx; [|discriminate].
      cbn [bind] in Et. inversion Et; subst t; clear Et.
      exists k1. eexists. split; [|split; [reflexivity|]].
      + destruct B1 as (X1 & X2 & X3 & X4 & X5). pose proof (at_char_place _ _ _ X1 KB) as Y1.
        destruct KB as (Q1 & Q2 & Q3 & Q4 & Q5 & Q6 & Q7 & Q8 & Q9).
        unfold between, well_reported, at_char. cbn. rewrite Q7, Q8, Q9. auto.
      + left. exists (Piece (lx_start U l1) (pos k1) Emitted (lx_type U l1)). split.
        * unfold emitted at 1. cbn. destruct KB as (Q1 & Q2 & Q3 & Q4 & Q5 & Q6 & Q7 & Q8 & Q9). rewrite Q9. exact Em.
        * pose proof (at_char_place _ _ _ J1 KB) as (_ & Y2 & _). destruct KB as (Q1 & Q2 & Q3 & Q4 & Q5 & Q6 & Q7 & Q8 & Q9).
          split.
          { unfold token_of. cbn. unfold get_char_index. rewrite Y2, Q4, Q5, Q6. cbn. split; [reflexivity|]. split; [reflexivity|].
            eapply located_start; [|exact J5]; destruct J1; auto. }
          split; [intros KY; cbn; apply KY|].
          intros KT. pose proof KT as (_ & KT'). unfold own_text. cbn. unfold get_char_index. rewrite Y2. cbn. intros S1 S2.
          specialize (J10 KT eq_refl). rewrite <- (KT' l1) in J10. fold lb in J10. rewrite J10 in Etx. unfold size, get_char_index in Etx.
          rewrite Y2 in Etx. cbn [is_index data_raw] in Etx. rewrite Q4 in Etx. rewrite Q4 in S1.
          pose proof (pos_le k1 (length cs) ltac:(destruct J1; lia)) as PL. rewrite pos_len in PL.
          destruct ((pos k1 - 1 >=? zlen raw) || (lx_start U l1 >=? zlen raw)) eqn:Eb2; [lia|]. rewrite Q4. eexists. exact Etx.
    - assert (F : is_emitted (Piece (lx_start U l1) (pos k1) f (lx_type U l1)) = false).
      { destruct f; auto. exfalso. destruct J9 as (_ & J9). specialize (J9 eq_refl). discriminate. }
      cbn [filter] in Em. rewrite F, app_nil_r in Em.
      destruct (IH _ _ _ _ _ B1 H) as (k' & t & X1 & X2 & X3). exists k', t. split; [exact X1|]. split; [exact X2|].
      rewrite Em in X3. exact X3.
  Qed.

  Lemma next_ok fuel l s k t l' s' : between k l ->
    next_token D U a action sempred before_emit ctx_hash actions_hash configs_hash fuel l s = Val (t, l', s') ->
    exists k', between k' l' /\
      ((exists p, emitted l' = emitted l ++ [p] /\ token_of cs pos t p /\ own_type t p /\ (keeps_text -> own_text t)) \/
       (lx_hit_eof U l' = true /\ emitted l' = emitted l /\ eof_token raw cs pos t)).
  Proof.
    intros B H. unfold next_token in H. step H ls E. destruct ls as [l1 s1]. step H t' Et. inversion H; subst; clear H.
    destruct (outer_ok _ _ _ _ _ _ _ B E) as (k' & t' & X1 & X2 & X3). rewrite X2 in Et. inversion Et; subst t'.
    exists k'. split; [exact X1 | exact X3].
  Qed.

  Lemma after_eof fuel l s t l' s' : lx_hit_eof U l = true ->
    next_token D U a action sempred before_emit ctx_hash actions_hash configs_hash fuel l s = Val (t, l', s') ->
    lx_hit_eof U l' = true /\ lx_log U l' = lx_log U l /\ lx_input U l' = lx_input U l /\ lx_errors U l' = lx_errors U l /\ s' = s.
  Proof.
    intros E H. unfold next_token in H. step H ls Eo. destruct ls as [l1 s1]. destruct fuel; [discriminate|].
    cbn [outer_loop] in Eo. rewrite E in Eo. step Eo l2 Ee. inversion Eo; subst; clear Eo. unfold emit_eof in Ee. step Ee t0 Et.
    inversion Ee; subst; clear Ee. cbn in H. inversion H; subst. cbn. auto.
  Qed.

  Lemma tokens_ok fuel n : forall l s k ts l' s', between k l ->
    next_tokens D U a action sempred before_emit ctx_hash actions_hash configs_hash fuel n l s = Val (ts, l', s') ->
    exists k' es eofs ps, between k' l' /\ ts = es ++ eofs /\ emitted l' = emitted l ++ ps /\
      Forall2 (token_of cs pos) es ps /\ Forall2 own_type es ps /\ Forall (eof_token raw cs pos) eofs /\ (eofs <> [] -> k' = length cs) /\ (keeps_text -> Forall own_text es).
  Proof.
    induction n as [|n IH]; intros l s k ts l' s' B H; cbn [next_tokens] in H.
    { inversion H; subst. exists k, [], [], []. split; [exact B|]. split; [reflexivity|]. split; [rewrite app_nil_r; reflexivity|]. split; [constructor|]. split; [constructor|]. split; [constructor|]. split; [intros X; exfalso; apply X; reflexivity | constructor]. }
    step H tyl Et. destruct tyl as [[t l1] s1]. step H rl Er. destruct rl as [[ts1 l2] s2]. inversion H; subst; clear H.
    destruct (next_ok _ _ _ _ _ _ _ B Et) as (k1 & B1 & [(p & Ep & Tp & Yp & Xp) | (HE & Ep & Tp)]).
    - destruct (IH _ _ _ _ _ _ B1 Er) as (k' & es & eofs & ps & X1 & -> & X3 & X4 & Y4 & X5 & X6 & X7).
      exists k', (t :: es), eofs, (p :: ps). split; [exact X1|]. split; [reflexivity|]. split.
      + rewrite X3, Ep, <- app_assoc. reflexivity.
      + split; [constructor; auto|]. split; [constructor; auto|]. split; [exact X5|]. split; [exact X6|]. intros KT. constructor; auto.
    - assert (G : forall n l s k ts l' s', between k l -> lx_hit_eof U l = true ->
        next_tokens D U a action sempred before_emit ctx_hash actions_hash configs_hash fuel n l s = Val (ts, l', s') ->
        exists k', between k' l' /\ lx_hit_eof U l' = true /\ emitted l' = emitted l /\ Forall (eof_token raw cs pos) ts).
      { clear - TS keeps no_tokens. intros n. induction n as [|n IH]; intros l s k ts l' s' B HE H; cbn [next_tokens] in H.
        - inversion H; subst. eauto 10.
        - step H tyl Et. destruct tyl as [[t l1] s1]. step H rl Er. destruct rl as [[ts1 l2] s2]. inversion H; subst; clear H.
          destruct (after_eof _ _ _ _ _ _ HE Et) as (HE1 & L1 & _).
          destruct (next_ok _ _ _ _ _ _ _ B Et) as (k1 & B1 & [(p & Ep & Tp & Yp & Xp) | (_ & Ep & Tp)]).
          + exfalso. unfold emitted in Ep. rewrite L1 in Ep. apply (f_equal (@length _)) in Ep. rewrite app_length in Ep. cbn in Ep. lia.
          + destruct (IH _ _ _ _ _ _ B1 HE1 Er) as (k' & X1 & X2 & X3 & X4). exists k'. split; [exact X1|]. split; [exact X2|].
            split; [congruence | constructor; auto]. }
      destruct (G _ _ _ _ _ _ _ B1 HE Er) as (k' & X1 & X2 & X3 & X4).
      exists k', [], (t :: ts1), []. split; [exact X1|]. split; [reflexivity|]. split; [rewrite app_nil_r; congruence|].
      split; [constructor|]. split; [constructor|]. split; [constructor; auto|]. split; [intros _; apply X1, X2 | constructor].
  Qed.

  Lemma between_start u : between 0 (new_base_lexer U (stream_new raw) u).
  Proof.
    unfold between, at_char, stands_at, well_reported. cbn. rewrite (pr_pos0 _ _ _ _ (source_presents _ _ _ _ TS)).
    repeat split; try constructor; try lia; intros; discriminate.
  Qed.
End Place.

(** ** What no step of a match changes.  [P] holds of the lexer after a match if it is kept by the
    embedded code and by the lexer's own small steps. *)
Section Preserve.
  Variable D : input_data.
  Variable U : Type.
  Variable a : atn.
  Variable action : Z -> Z -> lexer U -> lexer U.
  Variable sempred : Z -> Z -> lexer U -> bool * lexer U.
  Variable ctx_hash : pctx -> Z.
  Variable actions_hash : list lexer_action -> Z.
  Variable configs_hash : list (config hashed) -> Z.
  Variable P : lexer U -> Prop.
  Hypothesis P_input : forall l i, P l -> P (with_input U l i).
  Hypothesis P_pos : forall l x y, P l -> P (with_pos U l x y).
  Hypothesis P_own : forall x l, P l -> P (execute_action U action x l).
  Hypothesis P_sempred : forall r i l, P l -> P (snd (sempred r i l)).

  Lemma consume_P l l' : sim_consume D U l = Val l' -> P l -> P l'.
  Proof.
    unfold sim_consume. intros H p. step H ch E. step H i Ei. inversion H; subst. apply P_input. destruct (ch =? NEWLINE); apply P_pos, p.
  Qed.
  Lemma predicate_P r i sp l b l' : evaluate_predicate D U sempred r i sp l = Val (b, l') -> P l -> P l'.
  Proof.
    unfold evaluate_predicate. intros H p. destruct sp; cbn [negb] in H.
    - step H l1 E. pose proof (consume_P _ _ E p) as p1. specialize (P_sempred r i l1 p1). destruct (sempred r i l1). inversion H; subst.
      apply P_input, P_pos. exact P_sempred.
    - specialize (P_sempred r i l p). destruct (sempred r i l). inversion H; subst. exact P_sempred.
  Qed.
  Lemma epsilon_P c t cs sp eof l c' cs' l' :
    get_epsilon_target D U a sempred actions_hash c t cs sp eof l = Val (c', cs', l') -> P l -> P l'.
  Proof.
    unfold get_epsilon_target. intros H p. step H target Et.
    destruct t; try (inversion H; subst; exact p); try discriminate;
      try (step H x Ex; inversion H; subst; exact p);
      try (destruct eof; [step H x Ex|]; inversion H; subst; exact p).
    - step H o Eo. destruct o; [step H x Ex|]; inversion H; subst; exact p.
    - step H x Ex. destruct x as [ok l1]. inversion H; subst. eapply predicate_P; eauto.
  Qed.
  Lemma each_P {A} (f : A -> bool * lset * lexer U -> outcome (bool * lset * lexer U)) xs :
    (forall x r cs l r' cs' l', f x (r, cs, l) = Val (r', cs', l') -> P l -> P l') ->
    forall r cs l r' cs' l', closure_each U f xs (r, cs, l) = Val (r', cs', l') -> P l -> P l'.
  Proof.
    intros F. induction xs as [|x xs IH]; intros r cs l r' cs' l' H p; cbn [closure_each] in H; [inversion H; subst; exact p|].
    step H st E. destruct st as [[r1 cs1] l1]. eauto.
  Qed.
  Lemma closure_P fuel : forall sp eof c r cs l r' cs' l',
    closure D U a sempred ctx_hash actions_hash fuel sp eof c (r, cs, l) = Val (r', cs', l') -> P l -> P l'.
  Proof.
    induction fuel as [|fuel IH]; intros sp eof c r cs l r' cs' l' H p; [discriminate|].
    cbn [closure] in H. step H state Es.
    assert (T : forall r cs, closure_each U (closure_trans D U a sempred actions_hash (closure D U a sempred ctx_hash actions_hash fuel sp eof) c sp eof)
                  (st_trans state) (r, cs, l) = Val (r', cs', l') -> P l').
    { intros r0 cs0 H0. eapply (each_P _ _) in H0; [exact H0 | | exact p]. intros t r1 cs1 l1 r2 cs2 l2 H1 p1. unfold closure_trans in H1.
      step H1 e Ee. destruct e as [[c' cs3] l3]. pose proof (epsilon_P _ _ _ _ _ _ _ _ _ Ee p1).
      destruct c'; [eauto | inversion H1; subst; auto]. }
    destruct (st_type state); try (step H cs1 Ec; eapply T; exact H).
    unfold closure_stop in H. step H ep Eep. step H em Eem. destruct (ep && em).
    - step H cs1 Ec. inversion H; subst. exact p.
    - step H rc Erc. destruct rc as [r1 cs1]. destruct (c_ctx c) as [ctx|]; [|inversion H; subst; exact p].
      destruct em; [inversion H; subst; exact p|]. eapply (each_P _ _) in H; [exact H | | exact p].
      intros i r2 cs2 l2 r3 cs3 l3 H1 p1. unfold closure_return in H1. step H1 rs Ers.
      destruct (rs =? EMPTY_RETURN_STATE); [inversion H1; subst; exact p1|]. step H1 nc Enc. step H1 rst Erst. eauto.
  Qed.
  Lemma start_P fuel ts : forall i cs l cs' l',
    start_loop D U a sempred ctx_hash actions_hash fuel ts i cs l = Val (cs', l') -> P l -> P l'.
  Proof.
    induction ts as [|t ts IH]; intros i cs l cs' l' H p; cbn [start_loop] in H; [inversion H; subst; exact p|].
    step H x E. destruct x as [[r1 cs1] l1]. eapply IH; [exact H|]. eapply closure_P; eauto.
  Qed.
  Lemma reach_trans_P fuel si t c r ts : forall cs l r' cs' l',
    reach_trans D U a sempred ctx_hash actions_hash fuel si t c r ts cs l = Val (r', cs', l') -> P l -> P l'.
  Proof.
    induction ts as [|tr ts IH]; intros cs l r' cs' l' H p; cbn [reach_trans] in H; [inversion H; subst; exact p|].
    step H tg E. destruct tg as [tg|]; [|eauto]. step H st Est. step H x Ex. destruct x as [[hit cs1] l1].
    pose proof (closure_P _ _ _ _ _ _ _ _ _ _ Ex p). destruct hit; [inversion H; subst; auto | eauto].
  Qed.
  Lemma reach_P fuel si t cl : forall sk cs l cs' l',
    reach_loop D U a sempred ctx_hash actions_hash fuel si t cl sk cs l = Val (cs', l') -> P l -> P l'.
  Proof.
    induction cl as [|c cl IH]; intros sk cs l cs' l' H p; cbn [reach_loop] in H; [inversion H; subst; exact p|].
    destruct (_ && _); [eauto|]. step H st Est. step H x Ex. destruct x as [[hit cs1] l1]. eapply IH; [exact H|]. eapply reach_trans_P; eauto.
  Qed.
  Lemma target_P fuel si d s t l d' s' l' :
    compute_target_state D U a sempred ctx_hash actions_hash configs_hash fuel si d s t l = Val (d', s', l') -> P l -> P l'.
  Proof.
    unfold compute_target_state. intros H p. step H st Es. step H rl Er. destruct rl as [reach l1].
    pose proof (reach_P _ _ _ _ _ _ _ _ _ Er p). destruct (configs reach).
    - step H d1 Ed. inversion H; subst; auto.
    - step H dt Ed. destruct dt as [d1 to]. step H d2 Ed2. inversion H; subst; auto.
  Qed.
  Lemma exec_loop_P fuel si n : forall d s symbol p l symbol' d' p' l',
    exec_loop D U a sempred ctx_hash actions_hash configs_hash fuel n si d s symbol p l = Val (symbol', d', p', l') -> P l -> P l'.
  Proof.
    induction n as [|n IH]; intros d s symbol p l symbol' d' p' l' H pl; [discriminate|]. cbn [exec_loop] in H.
    step H ex1 Ex. step H dt Edt. destruct dt as [[d1 target] l1].
    assert (p1 : P l1) by (destruct ex1; [inversion Edt; subst; exact pl | eapply target_P; eauto]).
    destruct (target =? ERROR_DFA_STATE_REF); [inversion H; subst; exact p1|]. step H l2 El2.
    assert (p2 : P l2) by (destruct (symbol =? EOF); [inversion El2; subst; exact p1 | eapply consume_P; eauto]).
    step H cp Ecp. destruct cp as [b p3]. destruct (b && _); [inversion H; subst; exact p2|]. step H sy Esy. eauto.
  Qed.
  Lemma execute_P e l start : P l -> P (execute U action e l start).
  Proof.
    assert (G : forall start stop xs rq l, P l -> P (snd (execute_loop U action start stop xs rq l))).
    { clear - P_input P_own. intros start stop xs. induction xs as [|x xs IH]; intros rq l p; cbn [execute_loop]; [exact p|].
      destruct x; cbn [is_position_dependent]; apply IH, P_own; try apply P_input; exact p. }
    intros p. unfold execute. specialize (G start (is_index (lx_input U l)) (ex_actions e) false l p).
    destruct (execute_loop _ _ _ _ _ _ _) as [rq l1]. cbn [snd] in G. destruct rq; [apply P_input|]; exact G.
  Qed.
  Lemma exec_atn_P fuel si s d p l r d' p' l' :
    exec_atn D U a action sempred ctx_hash actions_hash configs_hash fuel si s d p l = Val (r, d', p', l') -> P l -> P l'.
  Proof.
    unfold exec_atn. intros H pl. step H bp Eb. destruct bp as [b p1]. step H sy Es. step H lo El.
    destruct lo as [[[sy2 d2] p2] l2]. step H fa Ef. destruct fa as [r3 l3]. inversion H; subst; clear H.
    pose proof (exec_loop_P _ _ _ _ _ _ _ _ _ _ _ _ El pl) as pl2. unfold fail_or_accept in Ef. destruct (sa_state p').
    - step Ef st Est. inversion Ef; subst. assert (X : P (accept U p' l2)) by (unfold accept; apply P_pos, P_input, pl2).
      destruct (d_exec st); [apply execute_P|]; exact X.
    - destruct (_ && _); inversion Ef; subst; exact pl2.
  Qed.
  Lemma match_P fuel mode l s r l' s' :
    match_token D U a action sempred ctx_hash actions_hash configs_hash fuel mode l s = Val (r, l', s') -> P l -> P l'.
  Proof.
    unfold match_token. intros H p. destruct (vget (sm_dfas s) mode) as [d|]; [|inversion H; subst; exact p].
    step H rd Er. destruct rd as [[[r1 d1] p1] l1]. step H dfas Ed. inversion H; subst; clear H.
    destruct (s0 d) as [q|]; [eapply exec_atn_P; eauto|]. unfold match_atn in Er.
    destruct (vget (mode_to_start_state a) mode) as [ss|]; [|inversion Er; subst; exact p].
    step Er st Est. step Er cl Ecl. destruct cl as [c0 l2]. step Er dn Edn. destruct dn as [d2 nx].
    unfold compute_start_state in Ecl. eapply exec_atn_P; [exact Er|]. eapply start_P; eauto.
  Qed.
End Preserve.

Lemma text_kept D U a action sempred before_emit ch ah sh : @no_own_text U action sempred before_emit ->
  keeps_text D U a action sempred before_emit ch ah sh.
Proof.
  intros (N1 & N2 & N3). split; [|exact N3]. intros fuel mode l s r l' s' H.
  eapply (match_P D U a action sempred ch ah sh (fun x => lx_text U x = lx_text U l)); [| | | |exact H|reflexivity].
  - intros; assumption.
  - intros; assumption.
  - induction x; intros l0 E; cbn [execute_action]; try exact E.
    + rewrite N1. exact E.
    + unfold pop_mode. destruct (vec_pop _) as [[st m]|]; exact E.
    + apply IHx, E.
  - intros. rewrite N2. assumption.
Qed.
