(** C45, C46, C73: transitions of the ATN. *)
From Coq Require Import ZArith List Bool Sorted Lia.
From Verif Require Import Outcome IntervalSetModel IntervalSetSpec IntervalSetProofs AtnModel AtnSpec AtnProofs.
Import ListNotations.
Local Open Scope Z_scope.

(** ** C45 *)
Theorem C45_add_transition : forall ts s0, st_trans s0 = [] -> st_eps_only s0 = false ->
  let s := fold_left add_transition ts s0 in
  without_repetitions ts (st_trans s) /\
  ForallOrdPairs (fun a b => ~ equal a b) (st_trans s) /\
  (st_eps_only s = true <-> st_trans s <> [] /\ forall t, In t (st_trans s) -> ~ consuming t) /\
  st_rule s = st_rule s0 /\ st_number s = st_number s0 /\ st_type_id s = st_type_id s0 /\ st_type s = st_type s0.
Proof.
  intros ts s0 E F s. destruct (add_all_inv ts s0 s0 [] (inv_start s0 E)) as (H1 & _ & H2 & H3). cbn in H1.
  fold s in H1, H2, H3. split; [exact H1|]. split; [eapply without_repetitions_pairs; eauto|]. split; [|exact H3].
  rewrite H2, F. intuition congruence.
Qed.
Print Assumptions C45_add_transition.

Example C45_nonvacuous :
  let s := fold_left add_transition
    [Epsilon 1 (-1); Atom 2 65; Epsilon 3 (-1); Range 2 65 65; RuleTr 1 7 0 0; Wildcard 2; Wildcard 2]
    new_base_atnstate in
  st_trans new_base_atnstate = [] /\ st_eps_only new_base_atnstate = false /\
  st_trans s = [Epsilon 1 (-1); Atom 2 65; Epsilon 3 (-1); Wildcard 2; Wildcard 2] /\ st_eps_only s = false.
Proof. vm_compute. auto. Qed.

(** ** C46 *)
(** Missing from the full statement: wildcards on the two ends of the vocabulary
    and rule transitions, see the refutations below. *)
Theorem C46_matches_partial : forall t lo hi x, set_ok t ->
  match t with
  | RuleTr _ _ _ _ => True
  | Wildcard _ => x <> lo -> x <> hi -> exists b, matches t x lo hi = Val b /\ (b = true <-> symbols t lo hi x)
  | _ => exists b, matches t x lo hi = Val b /\ (b = true <-> symbols t lo hi x)
  end.
Proof.
  intros t lo hi x H. pose proof (matches_ok t lo hi x H) as M. destruct t; auto.
  intros N1 N2. cbn. eexists. split; [reflexivity|]. rewrite andb_true_iff, Z.ltb_lt, Z.gtb_lt. lia.
Qed.
Print Assumptions C46_matches_partial.

(** A wildcard does not match the smallest and the largest symbol of the vocabulary. *)
Theorem C46_wildcard_ends_refuted : forall g lo hi, lo <= hi ->
  symbols (Wildcard g) lo hi lo /\ matches (Wildcard g) lo lo hi = Val false /\
  symbols (Wildcard g) lo hi hi /\ matches (Wildcard g) hi lo hi = Val false.
Proof.
  intros. cbn. rewrite !Z.ltb_irrefl, !Z.gtb_ltb, !Z.ltb_irrefl, andb_false_r. cbn. repeat split; auto; lia.
Qed.
Print Assumptions C46_wildcard_ends_refuted.

(** Asking a rule transition whether it matches panics. *)
Theorem C46_rule_transition_refuted : forall g f r p x lo hi,
  matches (RuleTr g f r p) x lo hi = Panics.
Proof. reflexivity. Qed.
Print Assumptions C46_rule_transition_refuted.

(** The lexer's view: the target is reached exactly on the symbols of the
    transition in the vocabulary 0..=0x10FFFF. *)
Theorem C46_reachable_target_partial : forall t x, set_ok t ->
  match t with
  | RuleTr _ _ _ _ => True
  | _ => 0 < x < 1114111 \/ (forall g, t <> Wildcard g) ->
      exists o, get_reachable_target t x = Val o /\
        (symbols t 0 1114111 x -> o = Some (get_target t)) /\ (~ symbols t 0 1114111 x -> o = None)
  end.
Proof.
  intros t x H. pose proof (matches_ok t 0 1114111 x H) as M. unfold get_reachable_target.
  change LEXER_MIN_CHAR_VALUE with 0. change LEXER_MAX_CHAR_VALUE with 1114111.
  assert (gen : (exists b, matches t x 0 1114111 = Val b /\ (b = true <-> symbols t 0 1114111 x)) ->
    exists o, obindo (matches t x 0 1114111) (fun m => Val (if m then Some (get_target t) else None)) = Val o /\
      (symbols t 0 1114111 x -> o = Some (get_target t)) /\ (~ symbols t 0 1114111 x -> o = None)).
  { intros (b & -> & Hb). cbn. exists (if b then Some (get_target t) else None). split; [reflexivity|].
    destruct b; split; intros; auto; try (exfalso; intuition congruence). }
  destruct t; auto. intros [R|R]; [|exfalso; eapply R; reflexivity].
  apply gen. cbn. eexists. split; [reflexivity|]. rewrite andb_true_iff, Z.ltb_lt, Z.gtb_lt. lia.
Qed.
Print Assumptions C46_reachable_target_partial.

Example C46_nonvacuous :
  let s := IS [Iv 48 57; Iv 97 122] false in
  set_ok (NotSet 3 s) /\ matches (NotSet 3 s) 65 0 1114111 = Val true /\ matches (NotSet 3 s) 98 0 1114111 = Val false /\
  matches (NotSet 3 s) (-1) 0 1114111 = Val false /\ matches (Wildcard 1) 10 0 1114111 = Val true.
Proof.
  cbv zeta. split; [|repeat split; reflexivity].
  split; repeat constructor; unfold gap; cbn; lia.
Qed.

(** ** C73: adding a transition must not lose what it stands for *)

(** Holds for consuming transitions as long as not-sets and other labels are not
    mixed in one state (missing: that mixture, and transitions that
    consume nothing). *)
Theorem C73_added_transition_kept_partial : forall s t lo hi,
  consuming t -> (forall u, In u (st_trans s) -> is_not_set u = is_not_set t) ->
  exists u, In u (st_trans (add_transition s t)) /\ does_as_much u t lo hi.
Proof.
  intros s t lo hi C N. unfold add_transition. cbn [st_trans].
  destruct (existsb (fun e => same_transition e t) (st_trans s)) eqn:Ex.
  - apply existsb_exists in Ex. destruct Ex as (u & Iu & E). exists u. split; auto.
    apply same_equal in E. destruct E as (T & [[Hn L]|[_ H]]); [|contradiction].
    split; [auto|]. split; [|contradiction]. intros _ x. specialize (N u Iu).
    destruct t as [g l|? ? ? ?|? ?|g a b|? ? ? ? ?|g s1|g s1|g|? ? ? ?|? ?], u as [g' l'|? ? ? ?|? ?|g' a' b'|? ? ? ? ?|g' s1'|g' s1'|g'|? ? ? ?|? ?];
      try discriminate; cbn [symbols label is_not_set consuming] in *; try contradiction; intros Hx;
      repeat match goal with H : context [if ?a <=? ?b then _ else _] |- _ => destruct (Z.leb_spec a b) end;
      try congruence; try (inversion L; subst; clear L); cbn [intervals] in *; try lia; auto.
    + exists (Iv l l). split; [left; auto|unfold in_range; cbn; lia].
    + exists (Iv a b). split; [left; auto|unfold in_range; cbn; lia].
    + destruct Hx as (r & [<-|[]] & R). unfold in_range in R; cbn in R; lia.
    + destruct Hx as (r & [<-|[]] & R). unfold in_range in R; cbn in R; lia.
    + destruct Hx as (r & [] & R).
  - exists t. split; [apply in_app_iff; cbn; auto|]. split; [reflexivity|]. split; auto.
Qed.
Print Assumptions C73_added_transition_kept_partial.

(** A not-set transition added after a set transition with the same set and target
    is dropped, although it stands for the complementary symbols. *)
Theorem C73_set_then_not_set_refuted : forall s g set lo hi x,
  st_trans s = [SetTr g set] -> lo <= x <= hi -> ~ member x (intervals set) ->
  st_trans (add_transition s (NotSet g set)) = [SetTr g set] /\
  symbols (NotSet g set) lo hi x /\
  (forall u, In u (st_trans (add_transition s (NotSet g set))) -> ~ symbols u lo hi x).
Proof.
  intros s g set lo hi x E R M. assert (st_trans (add_transition s (NotSet g set)) = [SetTr g set]) as H.
  { unfold add_transition; cbn [st_trans]. rewrite E. cbn. unfold same_transition; cbn. rewrite Z.eqb_refl.
    replace (is_eqb set set) with true by (symmetry; apply is_eqb_eq; reflexivity). reflexivity. }
  rewrite H. split; [reflexivity|]. split; [cbn; auto|]. intros u [<-|[]]. cbn. auto.
Qed.
Print Assumptions C73_set_then_not_set_refuted.

(** Of two transitions that consume nothing and lead to the same state, the second
    one is dropped, even if it carries another predicate, action or rule call. *)
Theorem C73_second_epsilon_refuted : forall s a b, ~ consuming a -> ~ consuming b -> get_target a = get_target b ->
  In a (st_trans s) -> st_trans (add_transition s b) = st_trans s.
Proof.
  intros s a b Ca Cb T I. unfold add_transition; cbn [st_trans].
  assert (existsb (fun e => same_transition e b) (st_trans s) = true) as ->; [|reflexivity].
  apply existsb_exists. exists a. split; auto. apply same_equal. split; auto.
Qed.
Print Assumptions C73_second_epsilon_refuted.

Example C73_nonvacuous :
  let s := add_transition new_base_atnstate (SetTr 4 (IS [Iv 65 70] false)) in
  st_trans s = [SetTr 4 (IS [Iv 65 70] false)] /\ ~ member 90 (intervals (IS [Iv 65 70] false)) /\
  st_trans (add_transition s (Atom 4 66)) = [SetTr 4 (IS [Iv 65 70] false); Atom 4 66].
Proof.
  cbv zeta. split; [reflexivity|]. split; [|reflexivity].
  intros (r & [<-|[]] & R). unfold in_range in R; cbn in R. lia.
Qed.
