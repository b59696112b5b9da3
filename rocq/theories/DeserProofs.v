(** Proofs about the ATN deserializer. *)
From Coq Require Import ZArith List Bool Lia Arith ZifyBool ZifyNat Sorted.
From Verif Require ConfigSetProofs.
From Verif Require Import Outcome IntervalSetModel IntervalSetSpec IntervalSetProofs DfaModel AtnModel AtnSpec AtnProofs DeserModel DeserSpec.
Import ListNotations.
Local Open Scope Z_scope.

Definition dec (v : Z) : Z := decode_word (encode_word v).

Lemma dec_range : forall v, -2 <= v <= 65533 -> dec v = v.
Proof.
  intros v H. unfold dec, decode_word, encode_word.
  assert (E : (v + 2) mod 65536 = v + 2) by (apply Z.mod_small; lia). rewrite E.
  destruct (Z.leb_spec 55296 (v + 2)), (Z.leb_spec (v + 2) 57343); cbn;
    match goal with |- context [?a >? ?b] => destruct (Z.gtb_spec a b) end; lia.
Qed.
Lemma dec_u16 : forall v, 0 <= v <= 65535 -> dec v mod 65536 = v.
Proof.
  intros v H. destruct (Z_le_dec v 65533). { rewrite dec_range by lia. apply Z.mod_small; lia. }
  assert (v = 65534 \/ v = 65535) as [-> | ->] by lia; reflexivity.
Qed.

(** ** generic loops *)
Fixpoint ifold {A S} (step : Z -> S -> A -> S) (i : Z) (l : list A) (s : S) : S :=
  match l with [] => s | x :: l => ifold step (i + 1) l (step i s x) end.

Lemma loop_fold : forall A S (f : A -> list Z) body step (I : S -> Prop) (Q : A -> Prop) l i s rest,
  (forall i s x rest, I s -> Q x -> body i s (map dec (f x) ++ rest) = Val (step i s x, rest) /\ I (step i s x)) ->
  I s -> Forall Q l ->
  loop (length l) i body s (map dec (flat_map f l) ++ rest) = Val (ifold step i l s, rest) /\ I (ifold step i l s).
Proof.
  intros A S f body step I Q l. induction l as [|x l IH]; intros i s rest H Hs HQ; cbn; [auto|].
  inversion HQ; subst. rewrite map_app, <- app_assoc.
  destruct (H i s x (map dec (flat_map f l) ++ rest) Hs) as [E Hs']; auto. rewrite E. cbn. apply IH; auto.
Qed.

Lemma ifold_app : forall A S (step : Z -> S -> A -> S) l m i s,
  ifold step i (l ++ m) s = ifold step (i + Z.of_nat (length l)) m (ifold step i l s).
Proof.
  intros A S step l. induction l as [|x l IH]; intros m i s; cbn [ifold app length].
  - f_equal. lia.
  - rewrite IH. f_equal. lia.
Qed.
Lemma ifold_ext : forall A S (f g : Z -> S -> A -> S) l i s, (forall i s x, In x l -> f i s x = g i s x) -> ifold f i l s = ifold g i l s.
Proof.
  intros A S f g l. induction l as [|x l IH]; intros i s H; cbn; auto. rewrite H by (left; auto). apply IH. intros; apply H; right; auto.
Qed.
Lemma ifold_const : forall A S (f : S -> A -> S) l i s, ifold (fun _ => f) i l s = fold_left f l s.
Proof. intros A S f l. induction l; intros; cbn; auto. Qed.
Lemma fold_snoc_map : forall A B (g : A -> B) l acc, fold_left (fun s x => s ++ [g x]) l acc = acc ++ map g l.
Proof.
  intros A B g l. induction l as [|x l IH]; intros acc; cbn; [rewrite app_nil_r; auto|].
  rewrite IH, <- app_assoc. reflexivity.
Qed.
Lemma ifold_snoc_map : forall A B (g : Z -> A -> B) l i acc,
  ifold (fun i s x => s ++ [g i x]) i l acc = acc ++ map (fun p => g (i + Z.of_nat (fst p)) (snd p)) (combine (seq 0 (length l)) l).
Proof.
  intros A B g l. induction l as [|x l IH]; intros i acc; cbn; [rewrite app_nil_r; auto|].
  rewrite IH, <- app_assoc. cbn. f_equal. f_equal; [f_equal; lia|].
  rewrite <- seq_shift. clear. generalize (seq 0 (length l)). intros s.
  revert l. induction s as [|a s IH]; intros [|y l]; cbn; auto. f_equal; [f_equal; lia|apply IH].
Qed.

(** ** point updates *)
Lemma list_ext : forall A (l m : list A), (forall n, nth_error l n = nth_error m n) -> l = m.
Proof.
  induction l as [|x l IH]; intros [|y m] H; auto.
  - specialize (H O); discriminate.
  - specialize (H O); discriminate.
  - pose proof (H O) as H0; cbn in H0. injection H0 as ->. f_equal. apply IH. intros n. apply (H (S n)).
Qed.

Lemma vget_map_pos : forall A (F : Z -> A) n i,
  vget (map F (map Z.of_nat (seq 0 n))) i = if (0 <=? i) && (i <? Z.of_nat n) then Some (F i) else None.
Proof.
  intros A F n i. unfold vget. destruct (Z.ltb_spec i 0).
  - replace (0 <=? i) with false by lia. reflexivity.
  - replace (0 <=? i) with true by lia. cbn. rewrite map_map.
    destruct (Z.ltb_spec i (Z.of_nat n)).
    + rewrite (nth_error_map). rewrite (nth_error_nth' _ 0%nat) by (rewrite seq_length; lia).
      rewrite seq_nth by lia. cbn. do 2 f_equal. lia.
    + apply nth_error_None. rewrite map_length, seq_length. lia.
Qed.

Lemma upd_map_pos : forall A (F : Z -> A) n j f, 0 <= j < Z.of_nat n ->
  upd (map F (map Z.of_nat (seq 0 n))) j f = Val (map (fun i => if i =? j then f (F i) else F i) (map Z.of_nat (seq 0 n))).
Proof.
  intros A F n j f H. unfold upd. rewrite vget_map_pos.
  replace ((0 <=? j) && (j <? Z.of_nat n)) with true by lia. cbn.
  unfold vset. rewrite !map_length, seq_length.
  replace ((j <? 0) || (Z.of_nat n <=? j)) with false by lia. cbn. f_equal.
  rewrite !map_map. apply list_ext. intros m. rewrite ConfigSetProofs.nth_set_nth, map_length, seq_length.
  replace (Z.to_nat j <? n)%nat with true by (symmetry; apply Nat.ltb_lt; lia).
  rewrite !nth_error_map. destruct (Nat.lt_ge_cases m n).
  - rewrite (nth_error_nth' (seq 0 n) 0%nat) by (rewrite seq_length; lia). rewrite seq_nth by lia. cbn.
    destruct (Nat.eqb_spec (Z.to_nat j) m) as [<-|Hm].
    + rewrite Z2Nat.id, Z.eqb_refl by lia. reflexivity.
    + replace (Z.of_nat m =? j) with false by lia. reflexivity.
  - assert (nth_error (seq 0 n) m = None) as -> by (apply nth_error_None; rewrite seq_length; lia). cbn.
    destruct (Nat.eqb_spec (Z.to_nat j) m); [lia|reflexivity].
Qed.

(** ** last positions *)
Lemma last_pos_snoc : forall l i x y, last_pos i x (l ++ [y]) = if y =? x then Some (i + Z.of_nat (length l)) else last_pos i x l.
Proof.
  induction l as [|z l IH]; intros i x y; cbn [last_pos app length].
  - destruct (y =? x); [f_equal; lia|auto].
  - rewrite IH. destruct (y =? x); [f_equal; lia|auto].
Qed.
Lemma last_pos_range : forall l i x j, last_pos i x l = Some j -> i <= j < i + Z.of_nat (length l).
Proof.
  induction l as [|z l IH]; intros i x j; cbn [last_pos length]; [discriminate|].
  destruct (last_pos (i + 1) x l) eqn:E.
  - intros [= ->]. apply IH in E. lia.
  - destruct (z =? x); [|discriminate]. intros [= ->]. lia.
Qed.

(** ** adding transitions changes only the transitions *)
Definition addp (p : list transition * bool) (t : transition) : list transition * bool :=
  let s := add_transition (AState 0 0 0 InvalidState (fst p) (snd p)) t in (st_trans s, st_eps_only s).
Lemma add_addp : forall r n id ty p t,
  add_transition (AState r n id ty (fst p) (snd p)) t = AState r n id ty (fst (addp p t)) (snd (addp p t)).
Proof. intros r n id ty [l e] t. reflexivity. Qed.
Lemma fold_addp : forall ts r n id ty p,
  fold_left add_transition ts (AState r n id ty (fst p) (snd p)) =
  AState r n id ty (fst (fold_left addp ts p)) (snd (fold_left addp ts p)).
Proof.
  induction ts as [|t ts IH]; intros r n id ty p; cbn [fold_left]; auto. rewrite add_addp. apply IH.
Qed.
Lemma with_transitions_addp : forall ts,
  st_trans (with_transitions new_base_atnstate ts) = fst (fold_left addp ts ([], false)) /\
  st_eps_only (with_transitions new_base_atnstate ts) = snd (fold_left addp ts ([], false)).
Proof.
  intros ts. unfold with_transitions, new_base_atnstate.
  pose proof (fold_addp ts 0 0 0 InvalidState ([], false)) as E. cbn [fst snd] in E. rewrite E. auto.
Qed.
Lemma addp_in : forall ts p u, In u (fst (fold_left addp ts p)) -> In u (fst p) \/ In u ts.
Proof.
  induction ts as [|t ts IH]; intros p u H; cbn [fold_left] in H; auto.
  apply IH in H. destruct H as [H|H]; [|right; right; auto].
  cbn in H. destruct (existsb _ _); auto. apply in_app_iff in H. cbn in *. tauto.
Qed.
Lemma addp_nonempty : forall ts p, fst p <> [] \/ ts <> [] -> fst (fold_left addp ts p) <> [].
Proof.
  induction ts as [|t ts IH]; intros p H; cbn [fold_left]; [tauto|].
  apply IH. left. cbn. destruct (existsb _ _) eqn:E; [|destruct (fst p); discriminate].
  intros Z. rewrite Z in E. discriminate.
Qed.
Lemma addp_eps : forall ts p, (snd p = true -> fst p <> []) -> snd (fold_left addp ts p) = true -> fst (fold_left addp ts p) <> [].
Proof.
  induction ts as [|t ts IH]; intros p H; cbn [fold_left]; auto. apply IH. intros _. cbn.
  destruct (existsb _ _) eqn:E; [|destruct (fst p); discriminate]. intros Z. rewrite Z in E. discriminate.
Qed.

Section Desc.
Variable d : desc.
Hypothesis ok : desc_ok d.

Definition N : nat := length (d_states d).

Lemma kind_at_range : forall i, is_state d i <-> 0 <= i < Z.of_nat N.
Proof.
  intros i. unfold is_state, kind_at, N. split.
  - intros (k & r & E). destruct (Z.ltb_spec i 0); [discriminate|].
    destruct (nth_error (d_states d) (Z.to_nat i)) eqn:En; [|discriminate].
    assert (Z.to_nat i < length (d_states d))%nat by (apply nth_error_Some; congruence). lia.
  - intros H. replace (i <? 0) with false by lia.
    destruct (nth_error (d_states d) (Z.to_nat i)) as [s|] eqn:En.
    + apply nth_error_In in En. destruct (ok_states d ok s En) as (k & r & -> & _). eauto.
    + apply nth_error_None in En. lia.
Qed.
Lemma state_word : forall i, is_state d i -> nat_word i.
Proof. intros i H. apply kind_at_range in H. destruct (ok_counts d ok) as (C & _). unfold count_ok, nat_word, N in *. lia. Qed.
Lemma kind_at_ok : forall i k r, kind_at d i = Some (k, r) -> word r /\ kind_ok d k r.
Proof.
  intros i k r E. unfold kind_at in E. destruct (i <? 0); [discriminate|].
  destruct (nth_error (d_states d) (Z.to_nat i)) as [s|] eqn:En; [|discriminate]. subst s.
  apply nth_error_In in En. destruct (ok_states d ok _ En) as (k' & r' & E' & H). inversion E'; subst. auto.
Qed.

(** a state with explicit changeable parts *)
Definition ty (k : kind) (ng lr : bool) (stop decision : Z) (prec : bool) : state_type :=
  match k with
  | KBasic => BasicState
  | KRuleStart => RuleStartState stop lr
  | KBlockStart e => DecisionState decision ng (BlockStartState e BasicBlockStart)
  | KPlusBlockStart e => DecisionState decision ng (BlockStartState e (PlusBlockStart 0))
  | KStarBlockStart e => DecisionState decision ng (BlockStartState e StarBlockStart)
  | KTokenStart => DecisionState decision ng TokenStartState
  | KRuleStop => RuleStopState
  | KBlockEnd => BlockEndState 0
  | KStarLoopBack => StarLoopbackState
  | KStarLoopEntry => DecisionState decision ng (StarLoopEntry 0 prec)
  | KPlusLoopBack => DecisionState decision ng PlusLoopBack
  | KLoopEnd e => LoopEndState e
  end.
Record parts := Parts { p_ng : bool; p_lr : bool; p_stop : Z; p_dec : Z; p_prec : bool; p_tr : list transition * bool }.
Definition el (i : Z) (p : parts) : atn_state :=
  match kind_at d i with
  | Some (k, r) => AState (stored_rule r) i (kind_id k) (ty k (p_ng p) (p_lr p) (p_stop p) (p_dec p) (p_prec p)) (fst (p_tr p)) (snd (p_tr p))
  | None => new_base_atnstate
  end.
Definition lst (P : Z -> parts) : list atn_state := map (fun i => el i (P i)) (map Z.of_nat (seq 0 N)).

Lemma lst_ext : forall P Q, (forall i, is_state d i -> P i = Q i) -> lst P = lst Q.
Proof.
  intros P Q H. unfold lst. apply map_ext_in. intros i Hi. apply in_map_iff in Hi. destruct Hi as (n & <- & Hn).
  apply in_seq in Hn. rewrite H; auto. apply kind_at_range. lia.
Qed.
Lemma vget_lst : forall P i, is_state d i -> vget (lst P) i = Some (el i (P i)).
Proof.
  intros P i H. apply kind_at_range in H. unfold lst. rewrite vget_map_pos.
  replace ((0 <=? i) && (i <? Z.of_nat N)) with true by lia. reflexivity.
Qed.
Lemma upd_lst : forall P j f g, is_state d j -> (forall i p, is_state d i -> f (el i p) = el i (g p)) ->
  upd (lst P) j f = Val (lst (fun i => if i =? j then g (P i) else P i)).
Proof.
  intros P j f g Hj H. unfold lst. rewrite upd_map_pos by (apply kind_at_range; auto). f_equal.
  apply map_ext_in. intros i Hi. apply in_map_iff in Hi. destruct Hi as (n & <- & Hn). apply in_seq in Hn.
  destruct (Z.of_nat n =? j); auto. apply H, kind_at_range. lia.
Qed.

Definition set_ng (p : parts) := Parts true (p_lr p) (p_stop p) (p_dec p) (p_prec p) (p_tr p).
Definition set_lr (p : parts) := Parts (p_ng p) true (p_stop p) (p_dec p) (p_prec p) (p_tr p).
Definition set_st (i : Z) (p : parts) := Parts (p_ng p) (p_lr p) i (p_dec p) (p_prec p) (p_tr p).
Definition set_dec (i : Z) (p : parts) := Parts (p_ng p) (p_lr p) (p_stop p) i (p_prec p) (p_tr p).
Definition set_prec (p : parts) := Parts (p_ng p) (p_lr p) (p_stop p) (p_dec p) true (p_tr p).
Definition set_tr (t : transition) (p : parts) := Parts (p_ng p) (p_lr p) (p_stop p) (p_dec p) (p_prec p) (addp (p_tr p) t).

Ltac els := intros i p (k & r & E); unfold el; rewrite E; destruct k; reflexivity.
Lemma el_ng : forall i p, is_state d i -> mark_non_greedy (el i p) = el i (set_ng p). Proof. els. Qed.
Lemma el_lr : forall i p, is_state d i -> mark_left_recursive (el i p) = el i (set_lr p). Proof. els. Qed.
Lemma el_st : forall j i p, is_state d i -> set_stop j (el i p) = el i (set_st j p). Proof. intros j; els. Qed.
Lemma el_dec : forall j i p, is_state d i -> set_decision j (el i p) = el i (set_dec j p). Proof. intros j; els. Qed.
Lemma el_prec : forall i p, is_state d i -> mark_precedence (el i p) = el i (set_prec p). Proof. els. Qed.
Lemma el_tr : forall t i p, is_state d i -> add_transition (el i p) t = el i (set_tr t p).
Proof. intros t i p (k & r & E); unfold el; rewrite E. apply add_addp. Qed.

Lemma dec_state : forall i, is_state d i -> dec i = i /\ as_usize i = i.
Proof.
  intros i H. apply state_word in H. unfold nat_word in H. split; [apply dec_range; lia|].
  unfold as_usize. destruct (Z.ltb_spec i 0); lia.
Qed.
Lemma dec_word : forall i, word i -> dec i = i.
Proof. intros i H. unfold word in H. apply dec_range; lia. Qed.
Lemma as_usize_nat : forall i, 0 <= i -> as_usize i = i.
Proof. intros i H. unfold as_usize. destruct (Z.ltb_spec i 0); lia. Qed.
Lemma dec_count : forall A (l : list A), count_ok l -> dec (Z.of_nat (length l)) = Z.of_nat (length l).
Proof. intros A l H. unfold count_ok in H. apply dec_range. lia. Qed.

(** *** states *)
Definition P0 (i : Z) : parts := Parts false false 0 (-1) false ([], false).

Lemma stored_as_usize : forall r, word r -> as_usize r = stored_rule r.
Proof. intros r H. unfold word, as_usize, stored_rule in *. destruct (Z.ltb_spec r 0), (Z.eqb_spec r (-1)); lia. Qed.

Definition base (i : Z) (s : option (kind * Z)) : atn_state :=
  match s with
  | Some (k, r) => AState (stored_rule r) i (kind_id k) (ty k false false 0 (-1) false) [] false
  | None => new_base_atnstate
  end.

Lemma read_state_ok : forall i l s rest,
  (exists k r, s = Some (k, r) /\ word r /\ kind_ok d k r) ->
  read_state i l (map dec (ser_state s) ++ rest) = Val (l ++ [base i s], rest).
Proof.
  intros i l s rest (k & r & -> & Hr & Hk).
  assert (Er : dec r = r) by (apply dec_word; auto).
  assert (N5 : (r =? 65535) = false) by (unfold word in Hr; lia).
  pose proof (stored_as_usize r Hr) as Es.
  destruct k; cbn [ser_state kind_id map app kind_ok] in *; unfold read_state; cbn [next obindo];
    rewrite ?Er; rewrite ?(dec_range (kind_id _)) by (cbn; lia);
    repeat match goal with |- context [dec (Zpos ?p)] => rewrite (dec_range (Zpos p)) by lia end;
    cbn [Z.eqb Pos.eqb]; rewrite ?N5; unfold state_factory; cbn [type_of_id obindo st_type]; cbn [next obindo];
    rewrite ?Es;
    try (match goal with H : nat_word ?e |- _ => assert (dec e = e) as -> by (unfold nat_word in H; apply dec_range; lia);
         rewrite (as_usize_nat e) by (unfold nat_word in H; lia) end);
    reflexivity.
Qed.

Lemma combine_seq_nth : forall A (l : list A) k n,
  nth_error (combine (seq k (length l)) l) n = match nth_error l n with Some x => Some ((k + n)%nat, x) | None => None end.
Proof.
  intros A l. induction l as [|x l IH]; intros k [|n]; cbn; auto.
  - do 2 f_equal. lia.
  - rewrite IH. destruct (nth_error l n); auto. do 2 f_equal. lia.
Qed.

Lemma base_lst : map (fun p => base (0 + Z.of_nat (fst p)) (snd p)) (combine (seq 0 (length (d_states d))) (d_states d)) = lst P0.
Proof.
  apply list_ext. intros n. unfold lst, N. rewrite nth_error_map, combine_seq_nth, !map_map, nth_error_map.
  destruct (nth_error (d_states d) n) as [s|] eqn:E.
  - assert (n < length (d_states d))%nat by (apply nth_error_Some; congruence).
    rewrite (nth_error_nth' (seq 0 (length (d_states d))) 0%nat) by (rewrite seq_length; lia).
    rewrite seq_nth by lia. cbn. f_equal. unfold el, kind_at.
    replace (Z.of_nat n <? 0) with false by lia. rewrite Nat2Z.id, E.
    apply nth_error_In in E. destruct (ok_states d ok s E) as (k & r & -> & _). reflexivity.
  - apply nth_error_None in E.
    assert (nth_error (seq 0 (length (d_states d))) n = None) as -> by (apply nth_error_None; rewrite seq_length; lia).
    reflexivity.
Qed.

Lemma mark_loop : forall f g, (forall i p, is_state d i -> f (el i p) = el i (g p)) ->
  forall l i P rest, Forall (is_state d) l ->
  loop (length l) i (read_mark f) (lst P) (map dec (flat_map (fun x => [x]) l) ++ rest) =
  Val (lst (fun i => fold_left (fun p x => if i =? x then g p else p) l (P i)), rest).
Proof.
  intros f g H l. induction l as [|x l IH]; intros i P rest F; cbn; auto.
  inversion F; subst. destruct (dec_state x) as [E1 E2]; auto. rewrite E1, E2.
  rewrite (upd_lst P x f g) by auto. cbn. rewrite IH by auto. reflexivity.
Qed.
Lemma fold_idem : forall (g : parts -> parts) l i p, (forall p, g (g p) = g p) ->
  fold_left (fun p x => if i =? x then g p else p) l p = if mem i l then g p else p.
Proof.
  intros g l i p H. revert p. induction l as [|x l IH]; intros p; cbn; auto.
  rewrite IH. unfold mem in *. cbn. destruct (i =? x); cbn; [|auto]. rewrite H. destruct (existsb _ _); auto.
Qed.

Definition P1 (i : Z) : parts := Parts (mem i (d_nongreedy d)) (mem i (d_leftrec d)) 0 (-1) false ([], false).

Lemma read_states_ok : forall a rest, states a = [] ->
  read_states a (map dec (counted ser_state (d_states d) ++ counted (fun x => [x]) (d_nongreedy d) ++
                          counted (fun x => [x]) (d_leftrec d)) ++ rest)
  = Val (with_states a (lst P1), rest).
Proof.
  intros a rest Ea. unfold read_states, counted. rewrite !map_app, <- !app_assoc.
  cbn [map app]. unfold next_count; cbn [next obindo].
  destruct (ok_counts d ok) as (C1 & C2 & C3 & _).
  rewrite dec_count by auto. replace (Z.of_nat (length (d_states d)) <? 0) with false by lia. cbn [obindo].
  rewrite Nat2Z.id, Ea.
  destruct (loop_fold _ _ ser_state read_state (fun i s x => s ++ [base i x]) (fun _ => True)
              (fun s => exists k r, s = Some (k, r) /\ word r /\ kind_ok d k r) (d_states d) 0 []
              (dec (Z.of_nat (length (d_nongreedy d))) :: map dec (flat_map (fun x => [x]) (d_nongreedy d)) ++
               dec (Z.of_nat (length (d_leftrec d))) :: map dec (flat_map (fun x => [x]) (d_leftrec d)) ++ rest)) as [E _]; auto.
  { intros i s x rest' _ Hx. split; auto. apply read_state_ok; auto. }
  { apply Forall_forall. intros s Hs. apply (ok_states d ok s Hs). }
  cbn [map app] in E |- *. rewrite E. cbn [obindo next].
  rewrite ifold_snoc_map. cbn [app]. rewrite base_lst.
  rewrite dec_count, Nat2Z.id by auto.
  rewrite (mark_loop _ set_ng el_ng) by apply (ok_nongreedy d ok). cbn [obindo next].
  rewrite dec_count, Nat2Z.id by auto.
  rewrite (mark_loop _ set_lr el_lr) by apply (ok_leftrec d ok). cbn [obindo next].
  do 3 f_equal. apply lst_ext. intros i _. rewrite !fold_idem by reflexivity.
  unfold P0, P1. destruct (mem i (d_nongreedy d)), (mem i (d_leftrec d)); reflexivity.
Qed.

(** *** rules *)
Lemma start_of_rule : forall r, is_rule d r -> exists s, start_of d r = Some s /\ is_state d s /\ vget (map fst (d_rules d)) r = Some s.
Proof.
  intros r H. unfold is_rule in H. unfold start_of, vget. replace (r <? 0) with false by lia.
  destruct (nth_error (d_rules d) (Z.to_nat r)) as [[s t]|] eqn:E.
  - exists s. rewrite nth_error_map, E. cbn. split; [auto|]. split; [|auto].
    apply nth_error_In in E. pose proof (ok_rules d ok) as F. rewrite Forall_forall in F. apply (F _ E).
  - apply nth_error_None in E. lia.
Qed.

Definition NR : nat := length (d_rules d).
Lemma vset_map_pos : forall A (F : Z -> A) n j x, 0 <= j < Z.of_nat n ->
  vset (map F (map Z.of_nat (seq 0 n))) j x = Some (map (fun i => if i =? j then x else F i) (map Z.of_nat (seq 0 n))).
Proof.
  intros A F n j x H. pose proof (upd_map_pos A F n j (fun _ => x) H) as E. unfold upd in E.
  rewrite vget_map_pos in E. replace ((0 <=? j) && (j <? Z.of_nat n)) with true in E by lia. cbn in E.
  destruct (vset _ _ _); cbn in E; [|discriminate]. injection E as ->. reflexivity.
Qed.

Lemma firstn_snoc : forall A (l : list A) n x, nth_error l n = Some x -> firstn (S n) l = firstn n l ++ [x].
Proof.
  intros A l. induction l as [|y l IH]; intros [|n] x E; cbn in *; try discriminate.
  - injection E as ->. reflexivity.
  - f_equal. apply IH; auto.
Qed.

Definition stops_at (n : nat) : list Z :=
  map (fun r => or_default (last_pos 0 r (firstn n (stop_rules d))) 0) (map Z.of_nat (seq 0 NR)).
Definition parts_at (P : Z -> parts) (n : nat) (j : Z) : parts :=
  set_st (or_default (last_pos 0 j (firstn n (stop_starts d))) 0) (P j).

Lemma map_pos_ext : forall A (F G : Z -> A) n, (forall i, 0 <= i < Z.of_nat n -> F i = G i) ->
  map F (map Z.of_nat (seq 0 n)) = map G (map Z.of_nat (seq 0 n)).
Proof.
  intros A F G n H. apply map_ext_in. intros i Hi. apply in_map_iff in Hi. destruct Hi as (m & <- & Hm).
  apply in_seq in Hm. apply H. lia.
Qed.

Lemma link_ok : forall P m n, (n + m = N)%nat ->
  link_stops m (Z.of_nat n) (map fst (d_rules d)) (stops_at n) (lst (parts_at P n)) =
  Val (stops_at N, lst (parts_at P N)).
Proof.
  intros P m. induction m as [|m IH]; intros n Hn; cbn [link_stops].
  - replace n with N by lia. reflexivity.
  - assert (Hs : is_state d (Z.of_nat n)) by (apply kind_at_range; auto; lia).
    rewrite vget_lst by auto. cbn [unwrap obindo].
    assert (En : exists s, nth_error (d_states d) n = Some s /\ kind_at d (Z.of_nat n) = s).
    { unfold kind_at. replace (Z.of_nat n <? 0) with false by lia. rewrite Nat2Z.id.
      destruct (nth_error (d_states d) n) eqn:E; eauto. apply nth_error_None in E. unfold N in Hn. lia. }
    destruct En as (s & En & Ek).
    assert (F1 : firstn (S n) (stop_rules d) = firstn n (stop_rules d) ++ [match s with Some (KRuleStop, r) => r | _ => -1 end])
      by (apply firstn_snoc; unfold stop_rules; rewrite nth_error_map, En; reflexivity).
    assert (F2 : firstn (S n) (stop_starts d) = firstn n (stop_starts d) ++ [match s with Some (KRuleStop, r) => or_default (start_of d r) (-1) | _ => -1 end])
      by (apply firstn_snoc; unfold stop_starts; rewrite nth_error_map, En; reflexivity).
    assert (L1 : Z.of_nat (length (firstn n (stop_rules d))) = Z.of_nat n)
      by (rewrite firstn_length; unfold stop_rules; rewrite map_length; unfold N in Hn; lia).
    assert (L2 : Z.of_nat (length (firstn n (stop_starts d))) = Z.of_nat n)
      by (rewrite firstn_length; unfold stop_starts; rewrite map_length; unfold N in Hn; lia).
    specialize (IH (S n) ltac:(lia)). replace (Z.of_nat n + 1) with (Z.of_nat (S n)) by lia.
    destruct Hs as (k & r & Ekr). rewrite Ekr in Ek. subst s.
    assert (skip : k <> KRuleStop -> stops_at n = stops_at (S n) /\ lst (parts_at P n) = lst (parts_at P (S n))).
    { intros Hk. split.
      - apply map_pos_ext. intros i Hi. rewrite F1, last_pos_snoc.
        assert (match k with KRuleStop => r | _ => -1 end = -1) as -> by (destruct k; congruence).
        replace (-1 =? i) with false by lia. reflexivity.
      - apply lst_ext; auto. intros i Hi. apply kind_at_range in Hi; auto. unfold parts_at. rewrite F2, last_pos_snoc.
        assert (match k with KRuleStop => or_default (start_of d r) (-1) | _ => -1 end = -1) as -> by (destruct k; congruence).
        replace (-1 =? i) with false by lia. reflexivity. }
    assert (Et : st_type (el (Z.of_nat n) (parts_at P n (Z.of_nat n))) =
                 ty k (p_ng (parts_at P n (Z.of_nat n))) (p_lr (parts_at P n (Z.of_nat n))) (p_stop (parts_at P n (Z.of_nat n)))
                   (p_dec (parts_at P n (Z.of_nat n))) (p_prec (parts_at P n (Z.of_nat n)))) by (unfold el; rewrite Ekr; reflexivity).
    assert (Er : st_rule (el (Z.of_nat n) (parts_at P n (Z.of_nat n))) = stored_rule r) by (unfold el; rewrite Ekr; reflexivity).
    rewrite Et, Er. clear Et Er.
    destruct k; cbn [ty]; try (destruct skip as [-> ->]; [discriminate|exact IH]).
    destruct (kind_at_ok _ _ _ Ekr) as [_ Hr]. cbn [kind_ok] in Hr.
    destruct (start_of_rule r Hr) as (st & Est & Hst & Ev).
    assert (stored_rule r = r) as -> by (unfold stored_rule; unfold is_rule in Hr; destruct (Z.eqb_spec r (-1)); lia).
    unfold stops_at at 1. rewrite vset_map_pos by (unfold is_rule in Hr; exact Hr). cbn [unwrap obindo]. rewrite Ev. cbn [unwrap obindo].
    rewrite (upd_lst _ st _ (set_st (Z.of_nat n))) by (auto; apply el_st). cbn [obindo].
    rewrite <- IH. f_equal.
    + apply map_pos_ext. intros i Hi. rewrite F1, last_pos_snoc, L1. rewrite (Z.eqb_sym r i). destruct (i =? r); [cbn; lia|reflexivity].
    + apply lst_ext; auto. intros i Hi. unfold parts_at. rewrite F2, last_pos_snoc, L2, Est. cbn [or_default]. rewrite (Z.eqb_sym st i).
      destruct (i =? st); cbn [or_default]; [unfold set_st; cbn; f_equal; lia|reflexivity].
Qed.

Definition P2 (i : Z) : parts :=
  Parts (mem i (d_nongreedy d)) (mem i (d_leftrec d)) (or_default (last_pos 0 i (stop_starts d)) 0) (-1) false ([], false).
Definition rule_words (r : Z * Z) : list Z := match d_type d with LEXER => [fst r; snd r] | PARSER => [fst r] end.

Lemma read_rules_ok : forall a rest, states a = lst P1 -> grammar_type a = d_type d -> rule_to_token_type a = [] ->
  read_rules a (map dec (counted rule_words (d_rules d)) ++ rest) =
  Val (with_states (with_rules a (map fst (d_rules d)) (map (fun r => stop_of d (Z.of_nat r)) (seq 0 (length (d_rules d))))
         (match d_type d with LEXER => map snd (d_rules d) | PARSER => [] end)) (lst P2), rest).
Proof.
  intros a rest Ea Eg Et. unfold read_rules, counted. cbn [map app]. unfold next_count; cbn [next obindo].
  destruct (ok_counts d ok) as (_ & _ & _ & C & _). rewrite dec_count by auto.
  replace (Z.of_nat (length (d_rules d)) <? 0) with false by lia. cbn [obindo]. rewrite Nat2Z.id, Eg, Et.
  destruct (loop_fold _ _ rule_words (read_rule (d_type d))
    (fun _ r x => (fst r ++ [fst x], match d_type d with LEXER => snd r ++ [snd x] | PARSER => snd r end)) (fun _ => True)
    (fun r => is_state d (fst r) /\ word (snd r)) (d_rules d) 0 ([], []) rest) as [E _]; auto.
  { intros i s x rest' _ (H1 & H2). split; auto. unfold rule_words, read_rule.
    destruct (dec_state _ H1) as [E1 E2]. destruct (d_type d); cbn; rewrite E1, E2; rewrite ?dec_word by auto; reflexivity. }
  { apply (ok_rules d ok). }
  rewrite E. cbn [obindo].
  assert (R : ifold (fun _ r x => (fst r ++ [fst x], match d_type d with LEXER => snd r ++ [snd x] | PARSER => snd r end)) 0 (d_rules d) ([], []) =
              (map fst (d_rules d), match d_type d with LEXER => map snd (d_rules d) | PARSER => [] end)).
  { rewrite (ifold_const _ _ (fun r x => (fst r ++ [fst x], match d_type d with LEXER => snd r ++ [snd x] | PARSER => snd r end))).
    assert (G : forall l u v, fold_left (fun r (x : Z * Z) => (fst r ++ [fst x], match d_type d with LEXER => snd r ++ [snd x] | PARSER => snd r end)) l (u, v) =
      (u ++ map fst l, match d_type d with LEXER => v ++ map snd l | PARSER => v end)).
    { induction l as [|x l IH]; intros u v; cbn.
      - rewrite app_nil_r. destruct (d_type d); rewrite ?app_nil_r; auto.
      - rewrite IH, <- app_assoc. destruct (d_type d); rewrite <- ?app_assoc; reflexivity. }
    rewrite G. destruct (d_type d); reflexivity. }
  rewrite R. cbn [fst snd].
  pose proof (link_ok P1 N 0 ltac:(lia)) as Lk. change (Z.of_nat 0) with 0 in Lk.
  assert (stops_at 0 = repeat 0 (length (d_rules d))) as E0.
  { unfold stops_at. cbn. rewrite map_map. fold NR. clear. generalize 0%nat. induction NR as [|n IH]; intros k; cbn; f_equal; auto. }
  assert (lst (parts_at P1 0) = lst P1) as E1 by (apply lst_ext; auto).
  rewrite E0, E1 in Lk. rewrite Ea.
  replace (length (lst P1)) with N by (unfold lst; rewrite !map_length, seq_length; reflexivity).
  rewrite Lk. cbn [obindo].
  do 3 f_equal.
  - unfold with_rules. f_equal. unfold stops_at. rewrite map_map. apply map_ext. intros r. unfold stop_of. rewrite firstn_all2; auto.
    unfold stop_rules, N. rewrite map_length. lia.
  - apply lst_ext; auto. intros i Hi. unfold parts_at, P2. rewrite firstn_all2; [reflexivity|]. unfold stop_starts, N. rewrite map_length. lia.
Qed.

(** *** modes *)
Lemma read_modes_ok : forall a rest, mode_to_start_state a = [] ->
  read_modes a (map dec (counted (fun x => [x]) (d_modes d)) ++ rest) = Val (with_modes a (d_modes d), rest).
Proof.
  intros a rest Ea. unfold read_modes, counted. cbn [map app next obindo].
  destruct (ok_counts d ok) as (_ & _ & _ & _ & C & _). rewrite dec_count, Nat2Z.id, Ea by auto.
  destruct (loop_fold _ _ (fun x : Z => [x]) read_mode (fun _ m x => m ++ [x]) (fun _ => True) nat_word (d_modes d) 0 [] rest) as [E _]; auto.
  { intros i s x rest' _ H. split; auto. unfold read_mode, nat_word in *. cbn. rewrite dec_range, as_usize_nat by lia. reflexivity. }
  { apply (ok_modes d ok). }
  rewrite E. cbn [obindo]. rewrite (ifold_const _ _ (fun m x => m ++ [x])).
  rewrite (fold_snoc_map _ _ (fun x : Z => x)), map_id. reflexivity.
Qed.

(** *** sets *)
Lemma add_last : forall l r, canonical (l ++ [r]) -> add_interval_l r l = l ++ [r].
Proof.
  intros l r H. assert (Hr : iv_a r <= iv_b r).
  { destruct H as [H _]. rewrite Forall_forall in H. apply H, in_app_iff. right; left; auto. }
  unfold add_interval_l, iv_length. replace (iv_b r - iv_a r <? 0) with false by lia.
  induction l as [|x l IH]; cbn [add_loop app]; auto.
  destruct H as [H1 H2]. inversion H1; subst. inversion H2; subst.
  assert (G : gap x r) by (rewrite Forall_forall in H6; apply H6, in_app_iff; right; left; auto).
  unfold gap in G. destruct x as [xa xb], r as [ra rb]. cbn [iv_a iv_b] in *.
  unfold iv_eqb, adjacent, disjoint, starts_before_disjoint, starts_after_disjoint. cbn [iv_a iv_b].
  replace ((xa =? ra) && (xb =? rb)) with false by lia.
  match goal with |- (if ?b then _ else _) = _ => replace b with false by lia end.
  match goal with |- (if ?b then _ else _) = _ => replace b with false by lia end.
  f_equal. apply IH. split; auto.
Qed.
Lemma canonical_prefix : forall l m, canonical (l ++ m) -> canonical l.
Proof.
  induction l as [|x l IH]; intros m H; [apply canonical_nil|].
  destruct H as [H1 H2]. cbn in *. inversion H1; subst. inversion H2; subst.
  destruct (IH m) as [K1 K2]; [split; auto|]. split; constructor; auto.
  rewrite Forall_app in H6. apply H6.
Qed.
Lemma fold_add_canonical : forall rs l ro, canonical (l ++ rs) ->
  fold_left (fun s r => add_range s (iv_a r) (iv_b r)) rs (IS l ro) = IS (l ++ rs) ro.
Proof.
  induction rs as [|r rs IH]; intros l ro H; cbn [fold_left]; [rewrite app_nil_r; auto|].
  unfold add_range at 2, add_interval. cbn [intervals IntervalSetModel.read_only].
  replace (Iv (iv_a r) (iv_b r)) with r by (destruct r; reflexivity).
  replace (l ++ r :: rs) with ((l ++ [r]) ++ rs) in * by (rewrite <- app_assoc; reflexivity).
  rewrite add_last by (eapply canonical_prefix; eauto). apply IH. auto.
Qed.

Lemma without_eof_fold : forall l, canonical l -> (forall r, In r l -> -1 <= iv_a r) ->
  fold_left (fun s r => add_range s (iv_a r) (iv_b r)) (without_eof l) (if has_eof l then add_one is_new (-1) else is_new) = IS l false.
Proof.
  intros [|[a b] l] H HB; cbn [without_eof has_eof]; [reflexivity|].
  destruct (Z.eqb_spec a (-1)) as [->|Ha].
  - change (add_one is_new (-1)) with (IS [Iv (-1) (-1)] false).
    destruct (Z.eqb_spec b (-1)) as [->|Hb].
    + apply (fold_add_canonical l [Iv (-1) (-1)] false H).
    + cbn [fold_left]. assert (-1 <= b) by (destruct H as [H _]; inversion H; subst; cbn in *; lia).
      assert (add_range (IS [Iv (-1) (-1)] false) (iv_a (Iv 0 b)) (iv_b (Iv 0 b)) = IS [Iv (-1) b] false) as ->.
      { unfold add_range, add_interval, add_interval_l, iv_length. cbn [iv_a iv_b intervals IntervalSetModel.read_only].
        replace (b - 0 <? 0) with false by lia. cbn [add_loop]. unfold iv_eqb, adjacent. cbn [iv_a iv_b].
        replace ((-1 =? 0) && (-1 =? b)) with false by lia.
        match goal with |- context [if ?b then _ else _] => replace b with true by lia end.
        cbn [merge_loop]. unfold iv_union. cbn [iv_a iv_b]. f_equal. f_equal. f_equal; lia. }
      apply (fold_add_canonical l [Iv (-1) b] false H).
  - apply (fold_add_canonical (Iv a b :: l) [] false H).
Qed.

Definition point_ok (hi : Z) (rd : list Z -> outcome (Z * list Z)) (point : Z -> list Z) : Prop :=
  forall x rest, 0 <= x <= hi -> rd (map dec (point x) ++ rest) = Val (x, rest).
Lemma point16 : point_ok 65535 read_unicode16 ser_point16.
Proof. intros x rest H. cbn. unfold as_u16. rewrite dec_u16 by lia. reflexivity. Qed.
Lemma point32 : point_ok 1114111 read_unicode32 ser_point32.
Proof.
  intros x rest H. unfold ser_point32, read_unicode32. cbn [map app next obindo]. do 2 f_equal. rewrite (dec_range (x / 65536)).
  - change 65535 with (Z.ones 16). rewrite Z.land_ones by lia. change (2 ^ 16) with 65536.
    rewrite dec_u16 by (pose proof (Z.mod_pos_bound x 65536); lia).
    change 65536 with (2 ^ 16). rewrite <- Z.land_ones, <- Z.shiftr_div_pow2 by lia.
    apply Z.bits_inj'. intros n Hn. rewrite Z.lor_spec, Z.land_spec, Z.shiftl_spec by lia.
    destruct (Z.ltb_spec n 16).
    + rewrite Z.ones_spec_low by lia. rewrite (Z.testbit_neg_r (Z.shiftr x 16) (n - 16)) by lia. rewrite andb_true_r, orb_false_r. reflexivity.
    + rewrite Z.ones_spec_high by lia. rewrite andb_false_r, Z.shiftr_spec by lia. cbn. f_equal. lia.
  - pose proof (Z.div_pos x 65536). assert (x / 65536 <= 1114111 / 65536) by (apply Z.div_le_mono; lia).
    change (1114111 / 65536) with 16 in *. lia.
Qed.

Lemma read_set_ok : forall hi rd point, point_ok hi rd point -> forall i sets l rest, set_in hi l ->
  read_set rd i sets (map dec (ser_set point l) ++ rest) = Val (sets ++ [IS l false], rest).
Proof.
  intros hi rd point Hp i sets l rest (Hc & Hr & Hn). unfold read_set, ser_set. cbn [map app next obindo].
  assert (Hw : forall r, In r (without_eof l) -> 0 <= iv_a r /\ iv_b r <= hi /\ iv_a r <= iv_b r).
  { destruct l as [|[a b] l]; cbn [without_eof]; [intros r []|].
    assert (Hrest : forall r, In r l -> 0 <= iv_a r /\ iv_b r <= hi /\ iv_a r <= iv_b r).
    { intros r I. destruct Hc as [H1 H2]. inversion H1; subst. inversion H2; subst. rewrite Forall_forall in *.
      specialize (H6 r I). specialize (H4 r I). unfold gap in H6. pose proof (Hr (Iv a b) (or_introl eq_refl)) as Ha.
      specialize (Hr r (or_intror I)). cbn in *. lia. }
    pose proof (Hr (Iv a b) (or_introl eq_refl)) as Ha. cbn in Ha.
    assert (a <= b) by (destruct Hc as [H1 _]; inversion H1; subst; cbn in *; lia).
    destruct (Z.eqb_spec a (-1)).
    - destruct (Z.eqb_spec b (-1)); [auto|]. intros r [<-|I]; [cbn; lia|auto].
    - intros r [<-|I]; [cbn; lia|auto]. }
  assert (Hl : count_ok (without_eof l)).
  { unfold count_ok in *. destruct l as [|[a b] l]; cbn [without_eof] in *; auto.
    destruct (a =? -1); auto. destruct (b =? -1); cbn [length] in *; lia. }
  rewrite dec_count, Nat2Z.id by auto.
  assert (E1 : negb (dec (if has_eof l then 1 else 0) =? 0) = has_eof l) by (destruct (has_eof l); reflexivity).
  rewrite E1.
  destruct (loop_fold _ _ (fun r => point (iv_a r) ++ point (iv_b r)) (read_interval rd)
     (fun _ s r => add_range s (iv_a r) (iv_b r)) (fun _ => True)
     (fun r => 0 <= iv_a r /\ iv_b r <= hi /\ iv_a r <= iv_b r) (without_eof l) 0
     (if has_eof l then add_one is_new (-1) else is_new) rest) as [E _]; auto.
  { intros j s r rest' _ H. split; auto. unfold read_interval. rewrite map_app, <- app_assoc.
    rewrite Hp by lia. cbn [obindo]. rewrite Hp by lia. reflexivity. }
  { apply Forall_forall. exact Hw. }
  rewrite E. cbn [obindo]. rewrite (ifold_const _ _ (fun s r => add_range s (iv_a r) (iv_b r))).
  rewrite without_eof_fold; auto. intros r I. apply Hr. auto.
Qed.
Lemma read_sets_ok : forall hi rd point, point_ok hi rd point -> forall l sets rest, Forall (set_in hi) l -> count_ok l ->
  read_sets rd sets (map dec (counted (ser_set point) l) ++ rest) = Val (sets ++ map (fun x => IS x false) l, rest).
Proof.
  intros hi rd point Hp l sets rest F C. unfold read_sets, counted. cbn [map app next obindo]. rewrite dec_count, Nat2Z.id by auto.
  destruct (loop_fold _ _ (ser_set point) (read_set rd) (fun _ s x => s ++ [IS x false]) (fun _ => True) (set_in hi) l 0 sets rest) as [E _]; auto.
  { intros i s x rest' _ H. split; auto. eapply read_set_ok; eauto. }
  rewrite E. rewrite (ifold_const _ _ (fun s x => s ++ [IS x false])), fold_snoc_map. reflexivity.
Qed.

(** *** edges *)
Lemma read_edge_ok : forall i P src trg e rest, is_state d src -> is_state d trg -> edge_ok d e ->
  read_edge (sets_of d) i (lst P) (map dec (ser_edge (src, trg, e)) ++ rest) =
  Val (lst (fun j => if j =? src then set_tr (trans_of d trg e) (P j) else P j), rest).
Proof.
  intros i P src trg e rest Hs Ht He. unfold read_edge, ser_edge.
  destruct (dec_state _ Hs) as [S1 S2]. destruct (dec_state _ Ht) as [T1 T2].
  assert (fin : forall t, (let! l := upd (lst P) src (fun s => add_transition s t) in Val (l, rest))%outcome =
     Val (lst (fun j => if j =? src then set_tr t (P j) else P j), rest)).
  { intros t. rewrite (upd_lst P src _ (set_tr t)) by (auto; apply el_tr). reflexivity. }
  assert (getset : forall n, nat_word n -> 0 <= n < Z.of_nat (length (sets_of d)) -> unwrap (vget (sets_of d) (as_usize n)) = Val (set_at d n)).
  { intros n Hn Hl. rewrite as_usize_nat by lia. unfold vget, set_at. replace (n <? 0) with false by lia.
    rewrite (nth_error_nth' _ is_new) by lia. reflexivity. }
  destruct e; cbn [edge_ok trans_of] in *.
  - cbn [map app next obindo]. rewrite S1, T1, S2, T2. apply fin.
  - destruct He as [H1 H2]. destruct (Z.eqb_spec lo (-1)) as [->|Hlo]; cbn [map app next obindo]; rewrite S1, T1, S2, T2, ?(dec_word lo), (dec_word hi) by auto; apply fin.
  - destruct He as (H1 & _ & H3 & H4). cbn [map app next obindo]. destruct (dec_state _ H1) as [R1 R2].
    rewrite S1, T1, S2, T2, R1, (dec_word rule), (dec_word prec) by auto. change (dec 3) with 3.
    cbn [edge_factory obindo]. rewrite R2. apply fin.
  - destruct He as [H1 H2]. cbn [map app next obindo]. rewrite S1, T1, S2, T2, (dec_word rule), (dec_word pred) by auto.
    assert (dec (bit ctx_dependent) = bit ctx_dependent) as -> by (destruct ctx_dependent; reflexivity). change (dec 4) with 4.
    cbn [edge_factory obindo]. assert (negb (bit ctx_dependent =? 0) = ctx_dependent) as -> by (destruct ctx_dependent; reflexivity). apply fin.
  - destruct (Z.eqb_spec l (-1)) as [->|Hl]; cbn [map app next obindo]; rewrite S1, T1, S2, T2, ?(dec_word l) by auto; apply fin.
  - destruct He as [H1 H2]. cbn [map app next obindo]. rewrite S1, T1, S2, T2, (dec_word rule), (dec_word action) by auto.
    assert (dec (bit ctx_dependent) = bit ctx_dependent) as -> by (destruct ctx_dependent; reflexivity). change (dec 6) with 6.
    cbn [edge_factory obindo]. assert (negb (bit ctx_dependent =? 0) = ctx_dependent) as -> by (destruct ctx_dependent; reflexivity). apply fin.
  - destruct He as [H1 H2]. cbn [map app next obindo]. rewrite S1, T1, S2, T2, (dec_range i0) by (unfold nat_word in H1; lia). change (dec 7) with 7.
    cbn [edge_factory obindo]. rewrite getset by auto. cbn [obindo]. apply fin.
  - destruct He as [H1 H2]. cbn [map app next obindo]. rewrite S1, T1, S2, T2, (dec_range i0) by (unfold nat_word in H1; lia). change (dec 8) with 8.
    cbn [edge_factory obindo]. rewrite getset by auto. cbn [obindo]. apply fin.
  - cbn [map app next obindo]. rewrite S1, T1, S2, T2. apply fin.
  - cbn [map app next obindo]. rewrite S1, T1, S2, T2, (dec_word prec) by auto. apply fin.
Qed.

Definition own_of (es : list (Z * Z * edge)) (i : Z) : list transition :=
  flat_map (fun e => let '(src, trg, e) := e in if src =? i then [trans_of d trg e] else []) es.
Definition with_tr (p : parts) (ts : list transition) : parts :=
  Parts (p_ng p) (p_lr p) (p_stop p) (p_dec p) (p_prec p) (fold_left addp ts (p_tr p)).

Lemma edges_loop : forall es i P rest,
  Forall (fun e => let '(src, trg, e) := e in is_state d src /\ is_state d trg /\ edge_ok d e) es ->
  loop (length es) i (read_edge (sets_of d)) (lst P) (map dec (flat_map ser_edge es) ++ rest) =
  Val (lst (fun j => with_tr (P j) (own_of es j)), rest).
Proof.
  induction es as [|[[src trg] e] es IH]; intros i P rest F; cbn [length loop flat_map map app].
  - reflexivity.
  - inversion F; subst. destruct H1 as (H1 & H3 & H4). rewrite map_app, <- app_assoc, read_edge_ok by auto. cbn [obindo].
    rewrite IH by auto. do 2 f_equal. apply lst_ext. intros j _. unfold own_of. cbn [flat_map].
    rewrite (Z.eqb_sym src j). destruct (j =? src); reflexivity.
Qed.

Definition tr_own (i : Z) : list transition * bool := fold_left addp (own d i) ([], false).
Definition tr_all (i : Z) : list transition * bool := fold_left addp (own d i ++ returns_to d i) ([], false).
Definition P3 (i : Z) : parts := with_tr (P2 i) (own d i).
Definition P4 (i : Z) : parts :=
  Parts (mem i (d_nongreedy d)) (mem i (d_leftrec d)) (or_default (last_pos 0 i (stop_starts d)) 0) (-1) false (tr_all i).

Lemma own_in : forall i t, In t (own d i) -> exists src trg e, In (src, trg, e) (d_edges d) /\ src = i /\ t = trans_of d trg e /\
  is_state d src /\ is_state d trg /\ edge_ok d e.
Proof.
  intros i t H. unfold own in H. apply in_flat_map in H. destruct H as ([[src trg] e] & Hi & Ht).
  destruct (Z.eqb_spec src i) as [->|]; [|destruct Ht]. destruct Ht as [<-|[]].
  pose proof (ok_edges d ok) as F. rewrite Forall_forall in F. specialize (F _ Hi). cbn in F. exists i, trg, e. tauto.
Qed.
Lemma own_call : forall i g f r p, In (RuleTr g f r p) (own d i) -> is_state d g /\ is_rule d (rule_at d g) /\ is_state d f.
Proof.
  intros i g f r p H. apply own_in in H. destruct H as (src & trg & e & _ & _ & E & _ & Ht & He).
  destruct e; try discriminate. cbn in E. injection E as -> -> -> ->. cbn in He. tauto.
Qed.
Lemma own_target : forall i t, In t (own d i) -> is_state d (get_target t).
Proof.
  intros i t H. apply own_in in H. destruct H as (src & trg & e & _ & _ & -> & _ & Ht & He).
  destruct e; cbn in *; tauto.
Qed.
Lemma stop_of_state : forall g r, is_state d g -> is_state d (stop_of d r).
Proof.
  intros g r H. apply kind_at_range in H; auto. apply kind_at_range; auto. unfold stop_of.
  destruct (last_pos 0 r (stop_rules d)) eqn:E; cbn; [|lia].
  apply last_pos_range in E. unfold stop_rules in E. rewrite map_length in E. unfold N. lia.
Qed.

Definition ret_of (t : transition) : list (Z * transition) :=
  match t with
  | RuleTr g f _ p =>
      let r := rule_at d g in
      let start := or_default (start_of d r) (-1) in
      [(stop_of d r, Epsilon f (if is_start_kind (kind_at d start) && mem start (d_leftrec d) && (p =? 0) then r else -1))]
  | _ => []
  end.

Lemma vget_stops : forall r, is_rule d r ->
  vget (map (fun r => stop_of d (Z.of_nat r)) (seq 0 (length (d_rules d)))) r = Some (stop_of d r).
Proof.
  intros r H. unfold is_rule in H.
  replace (map (fun r => stop_of d (Z.of_nat r)) (seq 0 (length (d_rules d)))) with (map (stop_of d) (map Z.of_nat (seq 0 (length (d_rules d))))) by (rewrite map_map; reflexivity).
  rewrite vget_map_pos. replace ((0 <=? r) && (r <? Z.of_nat (length (d_rules d)))) with true by lia. reflexivity.
Qed.

Lemma return_of_ok : forall a t i P, states a = lst P -> (forall j, p_lr (P j) = mem j (d_leftrec d)) ->
  rule_to_start_state a = map fst (d_rules d) ->
  rule_to_stop_state a = map (fun r => stop_of d (Z.of_nat r)) (seq 0 (length (d_rules d))) ->
  In t (own d i) -> return_of a t = Val (ret_of t).
Proof.
  intros a t i P Ea El E1 E2 I. destruct t as [g l|g f r p|g o|g x y|g c r x y|g s|g s|g|g c r p|g p]; try reflexivity.
  apply own_call in I. destruct I as (Hg & Hr & Hf). unfold return_of. rewrite Ea, vget_lst by auto. cbn [unwrap obindo].
  assert (Er : st_rule (el g (P g)) = rule_at d g).
  { destruct Hg as (k & q & E). unfold el, rule_at in *. rewrite E in *. cbn. unfold is_rule in Hr. unfold stored_rule. destruct (Z.eqb_spec q (-1)); lia. }
  rewrite Er. destruct (start_of_rule _ Hr) as (s & Es & Hs & Ev). rewrite E1, Ev. cbn [unwrap obindo].
  rewrite vget_lst by auto. cbn [unwrap obindo]. rewrite E2, vget_stops by auto. cbn [unwrap obindo].
  unfold ret_of. rewrite Es. cbn [or_default]. do 4 f_equal.
  destruct Hs as (k & q & E). unfold el. rewrite E. cbn [st_type is_start_kind]. rewrite El.
  destruct k; cbn; try reflexivity. destruct (mem s (d_leftrec d)); reflexivity.
Qed.

Lemma returns_of_ok : forall a P, states a = lst P -> (forall j, p_lr (P j) = mem j (d_leftrec d)) ->
  rule_to_start_state a = map fst (d_rules d) ->
  rule_to_stop_state a = map (fun r => stop_of d (Z.of_nat r)) (seq 0 (length (d_rules d))) ->
  forall ts, (forall t, In t ts -> exists i, In t (own d i)) -> returns_of a ts = Val (flat_map ret_of ts).
Proof.
  intros a P Ea El E1 E2 ts. induction ts as [|t ts IH]; intros H; cbn; auto.
  destruct (H t (or_introl eq_refl)) as [i Hi]. erewrite return_of_ok by eauto. cbn [obindo]. rewrite IH by (intros; apply H; right; auto). reflexivity.
Qed.

Lemma add_returns_ok : forall rs P, (forall st t, In (st, t) rs -> is_state d st) ->
  add_returns (lst P) rs = Val (lst (fun i => with_tr (P i) (flat_map (fun x => if fst x =? i then [snd x] else []) rs))).
Proof.
  induction rs as [|[st t] rs IH]; intros P H; cbn [add_returns flat_map].
  - reflexivity.
  - rewrite (upd_lst P st _ (set_tr t)) by (try (eapply H; left; reflexivity); apply el_tr). cbn [obindo].
    rewrite IH by (intros; eapply H; right; eauto). f_equal. apply lst_ext. intros i _. cbn [fst snd].
    rewrite (Z.eqb_sym st i). destruct (i =? st); reflexivity.
Qed.

Lemma flat_map_flat_map : forall A B C (f : A -> list B) (g : B -> list C) l, flat_map g (flat_map f l) = flat_map (fun x => flat_map g (f x)) l.
Proof. intros A B C f g l. induction l; cbn; auto. rewrite flat_map_app. f_equal; auto. Qed.

Lemma returns_to_eq : forall i,
  flat_map (fun x => if fst x =? i then [snd x] else []) (flat_map ret_of (flat_map (fun j => fst (tr_own j)) (positions d))) = returns_to d i.
Proof.
  intros i. unfold returns_to. rewrite !flat_map_flat_map. apply flat_map_ext. intros j.
  unfold calls. destruct (with_transitions_addp (own d j)) as [-> _]. fold (tr_own j). rewrite !flat_map_flat_map.
  apply flat_map_ext. intros []; cbn; try reflexivity.
Qed.

Lemma read_edges_ok : forall a rest, states a = lst P2 -> rule_to_start_state a = map fst (d_rules d) ->
  rule_to_stop_state a = map (fun r => stop_of d (Z.of_nat r)) (seq 0 (length (d_rules d))) ->
  read_edges a (sets_of d) (map dec (counted ser_edge (d_edges d)) ++ rest) = Val (with_states a (lst P4), rest).
Proof.
  intros a rest Ea E1 E2. unfold read_edges, counted. cbn [map app next obindo].
  destruct (ok_counts d ok) as (_ & _ & _ & _ & _ & _ & _ & C & _). rewrite dec_count, Nat2Z.id, Ea by auto.
  rewrite edges_loop by apply (ok_edges d ok). cbn [obindo].
  change (fun j => with_tr (P2 j) (own_of (d_edges d) j)) with P3.
  assert (T : flat_map st_trans (lst P3) = flat_map (fun j => fst (tr_own j)) (positions d)).
  { unfold lst, positions. rewrite !(flat_map_concat_map _ (map _ _)), !map_map.
    f_equal. apply map_ext_in. intros n Hn. apply in_seq in Hn.
    assert (Hs : is_state d (Z.of_nat n)) by (apply kind_at_range; auto; unfold N; lia).
    destruct Hs as (k & r & E). unfold el. rewrite E. reflexivity. }
  rewrite T. rewrite (returns_of_ok (with_states a (lst P3)) P3); auto.
  - cbn [obindo]. rewrite add_returns_ok.
    + cbn [obindo]. do 2 f_equal. unfold with_states. cbn. f_equal.
      apply lst_ext. intros i _. rewrite returns_to_eq. unfold P3, P2, P4, with_tr, tr_all. cbn. rewrite fold_left_app. reflexivity.
    + intros st t I. apply in_flat_map in I. destruct I as (t' & It & I). unfold ret_of in I.
      destruct t'; cbn in I; try contradiction. destruct I as [I|[]]. injection I as <- _.
      apply in_flat_map in It. destruct It as (j & _ & It). apply addp_in in It. destruct It as [[]|It].
      apply own_call in It. eapply stop_of_state. apply It.
  - intros t I. apply in_flat_map in I. destruct I as (j & _ & It). apply addp_in in It. destruct It as [[]|It]. eauto.
Qed.

(** *** decisions *)
Definition P5 (i : Z) : parts :=
  Parts (mem i (d_nongreedy d)) (mem i (d_leftrec d)) (or_default (last_pos 0 i (stop_starts d)) 0)
    (or_default (last_pos 0 i (d_decisions d)) (-1)) false (tr_all i).

Lemma decisions_loop : forall suf pre P rest, Forall (is_state d) suf ->
  (forall j, p_dec (P j) = or_default (last_pos 0 j pre) (-1)) ->
  loop (length suf) (Z.of_nat (length pre)) read_decision (pre, lst P) (map dec (flat_map (fun x => [x]) suf) ++ rest) =
  Val ((pre ++ suf, lst (fun j => set_dec (or_default (last_pos 0 j (pre ++ suf)) (-1)) (P j))), rest).
Proof.
  induction suf as [|x suf IH]; intros pre P rest F H; cbn [length loop flat_map map app].
  - rewrite app_nil_r. do 3 f_equal. apply lst_ext. intros j _. rewrite <- H. destruct (P j); reflexivity.
  - inversion F; subst. unfold read_decision at 1. cbn [next obindo fst snd]. destruct (dec_state x) as [E1 E2]; auto.
    rewrite E1, E2. rewrite (upd_lst P x _ (set_dec (Z.of_nat (length pre)))) by (auto; apply el_dec). cbn [obindo].
    replace (Z.of_nat (length pre) + 1) with (Z.of_nat (length (pre ++ [x]))) by (rewrite app_length; cbn; lia).
    rewrite IH; auto.
    + rewrite <- app_assoc. cbn [app]. do 3 f_equal. apply lst_ext. intros j _. destruct (j =? x); destruct (P j); reflexivity.
    + intros j. rewrite last_pos_snoc. rewrite (Z.eqb_sym x j). destruct (j =? x); cbn; [lia|apply H].
Qed.
Lemma read_decisions_ok : forall a rest, states a = lst P4 -> decision_to_state a = [] ->
  read_decisions a (map dec (counted (fun x => [x]) (d_decisions d)) ++ rest) =
  Val (with_states (with_decisions a (d_decisions d)) (lst P5), rest).
Proof.
  intros a rest Ea Ed. unfold read_decisions, counted. cbn [map app next obindo].
  destruct (ok_counts d ok) as (_ & _ & _ & _ & _ & _ & _ & _ & C & _). rewrite dec_count, Nat2Z.id, Ea, Ed by auto.
  pose proof (decisions_loop (d_decisions d) [] P4 rest (ok_decisions d ok) ltac:(reflexivity)) as E.
  cbn [length app] in E. change (Z.of_nat 0) with 0 in E. rewrite E. cbn [obindo fst snd]. reflexivity.
Qed.

(** *** lexer actions *)
Lemma read_action_ok : forall i l x rest, action_ok x ->
  read_lexer_action i l (map dec (ser_action x) ++ rest) = Val (l ++ [x], rest).
Proof.
  intros i l x rest H. unfold read_lexer_action.
  destruct x; cbn [action_ok ser_action map app next obindo] in *; try contradiction;
    repeat match goal with H : _ /\ _ |- _ => destruct H end;
    repeat match goal with H : word ?v |- _ => rewrite (dec_word v) by auto; replace (v =? 65535) with false by (unfold word in H; lia); clear H end;
    try reflexivity.
Qed.
Lemma read_actions_ok : forall a rest, lexer_actions a = [] ->
  read_lexer_actions a (map dec (counted ser_action (d_actions d)) ++ rest) = Val (with_actions a (d_actions d), rest).
Proof.
  intros a rest Ea. unfold read_lexer_actions, counted. cbn [map app]. unfold next_count. cbn [next obindo].
  destruct (ok_counts d ok) as (_ & _ & _ & _ & _ & _ & _ & _ & _ & C). rewrite dec_count by auto.
  replace (Z.of_nat (length (d_actions d)) <? 0) with false by lia. cbn [obindo]. rewrite Nat2Z.id, Ea.
  destruct (loop_fold _ _ ser_action read_lexer_action (fun _ l x => l ++ [x]) (fun _ => True) action_ok (d_actions d) 0 [] rest) as [E _]; auto.
  { intros i s x rest' _ H. split; auto. apply read_action_ok; auto. }
  { apply (ok_actions d ok). }
  rewrite E. cbn [obindo]. rewrite (ifold_const _ _ (fun m x => m ++ [x])).
  rewrite (fold_snoc_map _ _ (fun x : lexer_action => x)), map_id. reflexivity.
Qed.

(** *** precedence decisions *)
Definition P6 (i : Z) : parts :=
  Parts (mem i (d_nongreedy d)) (mem i (d_leftrec d)) (or_default (last_pos 0 i (stop_starts d)) 0)
    (or_default (last_pos 0 i (d_decisions d)) (-1)) (precedence_entry d i) (tr_all i).

Lemma out_tr : forall i, out d i = fst (tr_all i) /\ eps_only d i = snd (tr_all i).
Proof. intros i. unfold out, eps_only, tr_all. apply with_transitions_addp. Qed.
Lemma out_target : forall i t, In t (out d i) -> is_state d (get_target t).
Proof.
  intros i t H. destruct (out_tr i) as [E _]. rewrite E in H. apply addp_in in H. destruct H as [[]|H].
  apply in_app_iff in H. destruct H as [H|H]; [eapply own_target; eauto|].
  rewrite <- returns_to_eq in H. apply in_flat_map in H. destruct H as ([st t'] & H & H'). cbn in H'.
  destruct (st =? i); [|destruct H']. destruct H' as [<-|[]].
  apply in_flat_map in H. destruct H as (t0 & I0 & I1). unfold ret_of in I1. destruct t0; cbn in I1; try contradiction.
  destruct I1 as [I1|[]]. injection I1 as _ <-. cbn.
  apply in_flat_map in I0. destruct I0 as (j & _ & I0). apply addp_in in I0. destruct I0 as [[]|I0]. apply own_call in I0. tauto.
Qed.

Lemma entry_ok : forall a i, states a = lst P5 -> rule_to_start_state a = map fst (d_rules d) -> is_state d i ->
  is_precedence_entry a (el i (P5 i)) = Val (precedence_entry d i).
Proof.
  intros a i Ea E1 Hi. unfold is_precedence_entry, precedence_entry.
  destruct Hi as (k & r & E). unfold el at 1. rewrite E. cbn [st_type].
  destruct k; cbn [ty P5 p_ng p_lr p_stop p_dec p_prec]; try reflexivity.
  destruct (ok_entries d ok i r E) as [Hr Ho]. destruct (start_of_rule r Hr) as (s & Es & Hs & Ev).
  assert (Er : st_rule (el i (P5 i)) = r).
  { unfold el. rewrite E. cbn. unfold is_rule in Hr. unfold stored_rule. destruct (Z.eqb_spec r (-1)); lia. }
  rewrite Er, E1, Ev. cbn [unwrap obindo]. rewrite Ea, vget_lst by auto. cbn [unwrap obindo]. rewrite Es. cbn [or_default].
  assert (Et : st_trans (el i (P5 i)) = out d i) by (unfold el; rewrite E; cbn; symmetry; apply out_tr).
  rewrite Et. destruct Hs as (k' & r' & E'). unfold el at 1. rewrite E'. cbn [st_type is_start_kind].
  destruct k'; cbn [ty P5 p_ng p_lr p_stop p_dec p_prec andb]; try reflexivity.
  destruct (mem s (d_leftrec d)) eqn:Em; cbn [andb]; [|reflexivity].
  assert (Hne : out d i <> []).
  { destruct (out_tr i) as [-> _]. apply addp_nonempty. right. destruct (own d i); [congruence|discriminate]. }
  unfold last_trans. destruct (rev (out d i)) as [|t l] eqn:Er'.
  { exfalso. apply Hne. rewrite <- (rev_involutive (out d i)), Er'. reflexivity. }
  assert (It : In t (out d i)) by (apply in_rev; rewrite Er'; left; auto).
  cbn [nth_error unwrap obindo]. pose proof (out_target _ _ It) as Ht. rewrite vget_lst by auto. cbn [unwrap obindo].
  destruct Ht as (k2 & r2 & E2). unfold el at 1. rewrite E2. cbn [st_type].
  destruct k2; cbn [ty P5 p_ng p_lr p_stop p_dec p_prec]; try reflexivity.
  assert (Eo : st_trans (el (get_target t) (P5 (get_target t))) = out d (get_target t)) by (unfold el; rewrite E2; cbn; symmetry; apply out_tr).
  assert (Ep : st_eps_only (el (get_target t) (P5 (get_target t))) = eps_only d (get_target t)) by (unfold el; rewrite E2; cbn; symmetry; apply out_tr).
  rewrite Eo, Ep. destruct (eps_only d (get_target t)) eqn:Ee; cbn [andb]; [|reflexivity].
  assert (Hn2 : out d (get_target t) <> []).
  { destruct (out_tr (get_target t)) as [Ex Ey]. rewrite Ex. rewrite Ey in Ee. apply addp_eps; auto. discriminate. }
  destruct (out d (get_target t)) as [|t0 l0] eqn:E0; [congruence|]. cbn [nth_error unwrap obindo].
  assert (Ht0 : is_state d (get_target t0)) by (apply (out_target (get_target t)); rewrite E0; left; auto).
  rewrite vget_lst by auto. cbn [unwrap obindo]. destruct Ht0 as (k3 & r3 & E3). unfold el. rewrite E3. cbn [st_type].
  destruct k3; reflexivity.
Qed.

Lemma precedence_states_ok : forall a, states a = lst P5 -> rule_to_start_state a = map fst (d_rules d) ->
  precedence_states a (lst P5) = Val (filter (precedence_entry d) (positions d)).
Proof.
  intros a Ea E1. unfold lst, positions. fold N.
  assert (F : Forall (is_state d) (map Z.of_nat (seq 0 N))).
  { apply Forall_forall. intros i Hi. apply in_map_iff in Hi. destruct Hi as (n & <- & Hn). apply in_seq in Hn. apply kind_at_range; auto. lia. }
  induction F as [|i l Hi F IH]; cbn [map precedence_states filter]; auto.
  rewrite entry_ok by auto. cbn [obindo]. rewrite IH. cbn [obindo].
  destruct Hi as (k & r & E). unfold el. rewrite E. cbn. destruct (precedence_entry d i); reflexivity.
Qed.
Lemma mark_all_ok : forall l P, Forall (is_state d) l ->
  mark_all (lst P) l = Val (lst (fun i => fold_left (fun p x => if i =? x then set_prec p else p) l (P i))).
Proof.
  induction l as [|x l IH]; intros P F; cbn [mark_all]; auto. inversion F; subst.
  rewrite (upd_lst P x _ set_prec) by (auto; apply el_prec). cbn [obindo]. rewrite IH by auto. reflexivity.
Qed.
Lemma mark_precedence_ok : forall a, states a = lst P5 -> rule_to_start_state a = map fst (d_rules d) ->
  mark_precedence_decisions a = Val (with_states a (lst P6)).
Proof.
  intros a Ea E1. unfold mark_precedence_decisions. rewrite Ea, precedence_states_ok by auto. cbn [obindo].
  rewrite mark_all_ok.
  - cbn [obindo]. do 2 f_equal. apply lst_ext. intros i Hi. rewrite fold_idem by reflexivity.
    assert (mem i (filter (precedence_entry d) (positions d)) = precedence_entry d i) as ->.
    { unfold mem. destruct (precedence_entry d i) eqn:E.
      - apply existsb_exists. exists i. split; [|apply Z.eqb_refl]. apply filter_In. split; auto.
        apply kind_at_range in Hi; auto. unfold positions. apply in_map_iff. exists (Z.to_nat i). split; [lia|]. apply in_seq. unfold N in Hi. lia.
      - apply not_true_iff_false. intros H. apply existsb_exists in H. destruct H as (j & H & Ej). apply Z.eqb_eq in Ej. subst j.
        apply filter_In in H. destruct H; congruence. }
    destruct (precedence_entry d i) eqn:E; unfold P5, P6; rewrite E; reflexivity.
  - apply Forall_forall. intros i Hi. apply filter_In in Hi. destruct Hi as [Hi _].
    unfold positions in Hi. apply in_map_iff in Hi. destruct Hi as (n & <- & Hn). apply in_seq in Hn. apply kind_at_range; auto. unfold N. lia.
Qed.

Lemma final_states : lst P6 = map (state_of d) (positions d).
Proof.
  unfold lst, positions. fold N. apply map_ext. intros i. unfold el, state_of.
  destruct (kind_at d i) as [[k r]|]; auto. destruct (out_tr i) as [-> ->]. reflexivity.
Qed.

Lemma check_uuid_ok : forall u rest, In u known_uuids -> check_uuid (map dec (words_of 8 u) ++ rest) = Val rest.
Proof.
  intros u rest [<-|[<-|[<-|[<-|[]]]]];
    (match goal with |- check_uuid (map dec ?w ++ _) = _ => let v := eval vm_compute in (map dec w) in change (map dec w) with v end; reflexivity).
Qed.

Lemma deserialize_ok : forall u, In u known_uuids -> deserialize (serialize u d) = Val (atn_of d).
Proof.
  intros u Hu. unfold deserialize, serialize. cbn [map next obindo].
  change (decode_word 3 + 2 =? SERIALIZED_VERSION) with true. cbn [negb].
  rewrite map_map. change (map (fun x => decode_word (encode_word x))) with (map dec). rewrite map_app.
  rewrite check_uuid_ok by auto. cbn [obindo]. unfold ser_body.
  rewrite map_app. unfold read_atn. cbn [map app next obindo].
  destruct (ok_max d ok) as [M1 M2].
  assert (E : (let! ty := match dec match d_type d with LEXER => 0 | PARSER => 1 end with 0 => Val LEXER | 1 => Val PARSER | _ => Panics end in Val ty)%outcome = Val (d_type d))
    by (destruct (d_type d); reflexivity).
  assert (E' : match dec match d_type d with LEXER => 0 | PARSER => 1 end with 0 => Val LEXER | 1 => Val PARSER | _ => Panics end = Val (d_type d))
    by (destruct (d_type d); reflexivity).
  rewrite E'. clear E E'. cbn [obindo next]. rewrite dec_word by (split; auto).
  match goal with |- context [map dec (?a ++ ?b ++ ?c ++ ?rest)] =>
    replace (a ++ b ++ c ++ rest) with ((a ++ b ++ c) ++ rest) by (rewrite <- !app_assoc; reflexivity) end.
  rewrite map_app, read_states_ok by reflexivity. cbn [obindo].
  rewrite map_app. fold rule_words. rewrite read_rules_ok by reflexivity. cbn [obindo].
  rewrite map_app, read_modes_ok by reflexivity. cbn [obindo].
  destruct (ok_counts d ok) as (_ & _ & _ & _ & _ & C1 & C2 & _).
  rewrite map_app, (read_sets_ok 65535) by (auto using point16, ok_sets16). cbn [obindo app].
  rewrite map_app, (read_sets_ok 1114111) by (auto using point32, ok_sets32). cbn [obindo].
  rewrite <- map_app. fold (sets_of d).
  rewrite map_app, read_edges_ok by reflexivity. cbn [obindo].
  rewrite map_app, read_decisions_ok by reflexivity. cbn [obindo].
  cbn [with_states with_rules with_modes with_decisions grammar_type decision_to_state lexer_actions max_token_type
       mode_to_start_state rule_to_start_state rule_to_stop_state rule_to_token_type states].
  destruct (d_type d) eqn:Et.
  - rewrite <- (app_nil_r (map dec _)), read_actions_ok by reflexivity. cbn [obindo].
    rewrite mark_precedence_ok by reflexivity. f_equal. unfold atn_of. rewrite Et. rewrite <- final_states. reflexivity.
  - cbn [obindo]. rewrite mark_precedence_ok by reflexivity. f_equal. unfold atn_of. rewrite Et. rewrite <- final_states. reflexivity.
Qed.
End Desc.

(** *** the header *)
Fixpoint le (l : list Z) : Z := match l with [] => 0 | b :: l => b + 256 * le l end.
Definition byte (b : Z) : Prop := 0 <= b < 256.
Lemma le_inj : forall l l', length l = length l' -> Forall byte l -> Forall byte l' -> le l = le l' -> l = l'.
Proof.
  unfold byte. induction l as [|b l IH]; intros [|b' l'] L F F' E; try discriminate; auto.
  inversion F; inversion F'; subst. cbn -[Z.mul] in E, L. assert (le l = le l') as E' by lia. rewrite E' in E. assert (b = b') as -> by lia.
  f_equal. apply IH; auto.
Qed.
Definition bytes_of (ws : list Z) : list Z := flat_map (fun w => [as_u16 w mod 256; as_u16 w / 256]) ws.
Lemma le_bytes : forall ws, le (bytes_of ws) = number_of ws.
Proof.
  induction ws as [|w ws IH]; auto. unfold bytes_of in *. cbn [flat_map app le number_of]. rewrite IH. unfold as_u16.
  pose proof (Z.div_mod (w mod 65536) 256). lia.
Qed.
Lemma bytes_byte : forall ws, Forall byte (bytes_of ws) /\ length (bytes_of ws) = (2 * length ws)%nat.
Proof.
  induction ws as [|w ws [IH1 IH2]]; [split; auto; constructor|]. unfold bytes_of in *. cbn [flat_map app length]. unfold as_u16, byte in *. split.
  - constructor; [|constructor; auto]; Z.div_mod_to_equations; lia.
  - rewrite IH2. lia.
Qed.
Lemma bytes_eqb_eq : forall x y, bytes_eqb x y = true <-> x = y.
Proof.
  induction x as [|a x IH]; intros [|b y]; cbn; split; intros H; try discriminate; auto.
  - apply andb_true_iff in H. destruct H as [H1 H2]. apply Z.eqb_eq in H1. apply IH in H2. congruence.
  - injection H as -> ->. rewrite Z.eqb_refl. apply IH. reflexivity.
Qed.
Lemma number_of_values : forall cs, number_of (map decode_word cs) = number_of (map word_value cs).
Proof.
  induction cs as [|c cs IH]; cbn; auto. rewrite IH. f_equal. unfold word_value, decode_word. rewrite Zmod_mod.
  destruct (Z.gtb_spec c 65535), (Z.leb_spec c 65535); try lia; reflexivity.
Qed.
Lemma uuid_eqb : forall ws, length ws = 8%nat ->
  existsb (bytes_eqb (rev (bytes_of ws))) SUPPORTED_UUIDS = true <-> In (number_of ws) known_uuids.
Proof.
  intros ws L. destruct (bytes_byte ws) as [B1 B2].
  assert (K : forall u n, le (rev u) = n -> length u = 16%nat -> forallb (fun b => (0 <=? b) && (b <? 256)) u = true -> (bytes_eqb (rev (bytes_of ws)) u = true <-> n = number_of ws)).
  { intros u n <- Lu Fu. rewrite bytes_eqb_eq, <- le_bytes. split; [intros <-; rewrite rev_involutive; auto|].
    intros E. rewrite <- (rev_involutive u). f_equal. apply le_inj; auto.
    - rewrite rev_length. lia.
    - apply Forall_rev. apply Forall_forall. intros b Hb. rewrite forallb_forall in Fu. specialize (Fu _ Hb). unfold byte. lia. }
  unfold SUPPORTED_UUIDS, known_uuids. cbn [existsb In]. rewrite !orb_true_iff.
  rewrite (K BASE_SERIALIZED_UUID 0x33761B2D78BB4A438B0B4F5BEE8AACF3),
    (K ADDED_PRECEDENCE_TRANSITIONS 0x1DA0C57D6C06438A9B2710BCB3CE0F61), (K ADDED_LEXER_ACTIONS 0xAADB8D7EAEEF4415AD2B8204D6CF042E),
    (K ADDED_UNICODE_SMP 0x596277843BE5417AB9EB8131A7286089) by reflexivity.
  intuition discriminate.
Qed.
Lemma check_uuid_good : forall words rest, length words = 8%nat -> In (number_of (map word_value words)) known_uuids ->
  check_uuid (map decode_word (words ++ rest)) = Val (map decode_word rest).
Proof.
  intros words rest L H. unfold check_uuid. rewrite map_app.
  assert (Lm : length (map decode_word words) = 8%nat) by (rewrite map_length; auto).
  rewrite firstn_app, skipn_app, Lm. change (8 - 8)%nat with 0%nat. rewrite firstn_all2, skipn_all2 by lia.
  rewrite firstn_O, app_nil_r. cbn [skipn app]. fold (bytes_of (map decode_word words)).
  rewrite rev_length. destruct (bytes_byte (map decode_word words)) as [_ ->]. rewrite Lm. cbn [Nat.mul Nat.add Nat.eqb negb].
  rewrite <- number_of_values in H. apply uuid_eqb in H; auto. rewrite H. reflexivity.
Qed.
Lemma check_uuid_cases : forall chars,
  (length (firstn 8 chars) = 8%nat /\ In (number_of (map word_value (firstn 8 chars))) known_uuids) \/
  check_uuid (map decode_word chars) = Panics.
Proof.
  intros chars. unfold check_uuid. rewrite firstn_map. fold (bytes_of (map decode_word (firstn 8 chars))).
  rewrite rev_length. destruct (bytes_byte (map decode_word (firstn 8 chars))) as [_ ->]. rewrite map_length.
  destruct (Nat.eq_dec (length (firstn 8 chars)) 8) as [E|E].
  - rewrite E. cbn [Nat.mul Nat.add Nat.eqb negb].
    destruct (existsb (bytes_eqb (rev (bytes_of (map decode_word (firstn 8 chars))))) SUPPORTED_UUIDS) eqn:X; auto.
    left. split; auto. rewrite <- number_of_values. apply uuid_eqb; auto. rewrite map_length; auto.
  - right. replace (Nat.eqb (2 * length (firstn 8 chars)) 16) with false; auto. symmetry. apply Nat.eqb_neq. lia.
Qed.
