(** C21-C25: graph-structured call stacks. *)
From Coq Require Import ZArith List Bool Lia Sorted.
From Verif Require Import Outcome PredContextModel PredContextSpec PredContextProofs.
Import ListNotations.
Local Open Scope Z_scope.

(** C21.  In full-context mode the merged context represents exactly the union,
    with no merge cache or with any cache produced by full-context merges, for
    all contexts of any depth and width.  (Fuel: any number above the depth of
    the first argument, i.e. the recursion always ends.  The only panic is the
    assertion that the result's hash is not zero, see C23.) *)
Theorem C21_merge_is_union : forall hash fuel a b k r k',
  (height a < fuel)%nat -> wf a -> wf b -> reach_cache hash false k ->
  merge hash fuel false a b k = Val (r, k') ->
  forall s, stands false r s <-> stands false a s \/ stands false b s.
Proof.
  intros hash fuel a b k r k' Hf Ha Hb Hk E.
  pose proof (merge_ok hash false fuel a b k Hf Ha Hb (reach_cache_ok _ _ _ Hk)) as M.
  rewrite E in M. apply M.
Qed.
Print Assumptions C21_merge_is_union.

Lemma neq_empty r2 q : pctx_eqb EMPTY (Singleton r2 (Some q)) = false.
Proof. unfold EMPTY. rewrite pctx_eqb_single. apply andb_false_r. Qed.

(** C21 fails when one cache serves both modes, which is what adaptive_predict
    does (parser_atn_simulator.rs 168: one cache per prediction, used by the SLL
    stage with wildcard roots and then by the full-context stage): the cache key
    does not contain the mode, so a full-context merge can return the wildcard
    result and lose stacks.  For every choice of frames [r], [r2]: after the
    wildcard merge of "r" and "r r2" the full-context merge loses "r r2". *)
Theorem C21_cache_shared_by_modes_refuted : forall hash r r2,
  (forall c, hash c <> 0) -> r < EMPTY_RETURN_STATE -> r2 < EMPTY_RETURN_STATE ->
  let a := Singleton r (Some EMPTY) in
  let b := Singleton r (Some (Singleton r2 (Some EMPTY))) in
  wf a /\ wf b /\
  exists k1, merge hash 9 true a b (Some []) = Val (a, k1) /\
  exists k2, merge hash 9 false a b k1 = Val (a, k2) /\
    stands false b [r; r2] /\ ~ stands false a [r; r2].
Proof.
  intros hash r r2 Hh Hr Hr2 a b.
  assert (Wa : wf a) by (apply wf_single_some; split; [assumption | apply wf_EMPTY]).
  assert (Wb : wf b) by (apply wf_single_some; split; [assumption | apply wf_single_some; split; [assumption | apply wf_EMPTY]]).
  split; [exact Wa|]. split; [exact Wb|].
  exists (Some [((a, b), a); ((EMPTY, Singleton r2 (Some EMPTY)), EMPTY)]). split.
  - assert (In8 : merge hash 8 true EMPTY (Singleton r2 (Some EMPTY)) (Some []) =
        Val (EMPTY, Some [((EMPTY, Singleton r2 (Some EMPTY)), EMPTY)])).
    { cbn [merge]. rewrite neq_empty. cbn [cache_get]. unfold merge_singletons, merge_root, singleton_is_empty.
      change (EMPTY) with (Singleton EMPTY_RETURN_STATE None) at 1. cbv iota beta.
      rewrite Z.eqb_refl. cbn [andb orb obindo]. rewrite (proj2 (Z.eqb_neq _ _) (Hh EMPTY)). reflexivity. }
    assert (N : pctx_eqb a b = false).
    { unfold a, b. rewrite pctx_eqb_single. cbn [opt_pctx_eqb]. rewrite neq_empty. apply andb_false_r. }
    change (merge hash 9 true a b (Some [])) with
      (if pctx_eqb a b then Val (a, Some []) else
       obindo (merge_singletons (merge hash 8 true) r (Some EMPTY) r (Some (Singleton r2 (Some EMPTY))) true (Some []))
        (fun x => let '(z, k0) := x in if hash z =? 0 then Panics
         else Val (z, match k0 with None => None | Some c => Some (((a, b), z) :: c) end))).
    rewrite N. unfold merge_singletons, merge_root, singleton_is_empty. rewrite !andb_false_r, Z.eqb_refl.
    cbn [orb unwrap obindo]. rewrite In8. cbn [obindo]. rewrite (proj2 (Z.eqb_neq _ _) (Hh _)). reflexivity.
  - exists (Some [((a, b), a); ((EMPTY, Singleton r2 (Some EMPTY)), EMPTY)]). split.
    + cbn [merge]. assert (N : pctx_eqb a b = false).
      { unfold a, b. rewrite pctx_eqb_single. cbn [opt_pctx_eqb]. rewrite neq_empty. apply andb_false_r. }
      rewrite N. cbn [cache_get]. rewrite !pctx_eqb_refl. reflexivity.
    + split.
      * apply Frame with (Singleton r2 (Some EMPTY)); [left; reflexivity|].
        apply Frame with EMPTY; [left; reflexivity|]. apply Bottom; [left; reflexivity | left; reflexivity].
      * rewrite stands_dent. unfold a. cbn [entries]. rewrite dent_single. intros (s' & E & S).
        injection E as <-. rewrite stands_EMPTY in S. destruct S; discriminate.
Qed.
Print Assumptions C21_cache_shared_by_modes_refuted.

(** C22.  With wildcard roots (an empty marker stands for every continuation)
    the merged context again represents exactly the union, and merging with the
    empty context gives the empty context. *)
Theorem C22_wildcard_merge : forall hash fuel a b k r k',
  (height a < fuel)%nat -> wf a -> wf b -> reach_cache hash true k ->
  merge hash fuel true a b k = Val (r, k') ->
  (forall s, stands true r s <-> stands true a s \/ stands true b s) /\
  (a = EMPTY \/ b = EMPTY -> r = EMPTY).
Proof.
  intros hash fuel a b k r k' Hf Ha Hb Hk E.
  pose proof (merge_ok hash true fuel a b k Hf Ha Hb (reach_cache_ok _ _ _ Hk)) as M.
  rewrite E in M. destruct M as ((_ & M & W) & _). split; [exact M | apply W; reflexivity].
Qed.
Print Assumptions C22_wildcard_merge.

(** C23.  The merge of well-formed contexts ends, is well formed, and does not
    panic, except through the assertion that a context's 32-bit hash is not zero
    (line 349), which no well-formedness condition excludes. *)
Theorem C23_merge_well_formed : forall hash fuel wild a b k,
  (height a < fuel)%nat -> wf a -> wf b -> reach_cache hash wild k ->
  (exists r k', merge hash fuel wild a b k = Val (r, k') /\ wf r /\ reach_cache hash wild k') \/
  (merge hash fuel wild a b k = Panics /\ exists c, wf c /\ hash c = 0).
Proof.
  intros hash fuel wild a b k Hf Ha Hb Hk.
  pose proof (merge_ok hash wild fuel a b k Hf Ha Hb (reach_cache_ok _ _ _ Hk)) as M.
  destruct (merge hash fuel wild a b k) as [[r k'] | | ] eqn:E; cbn [ok_result] in M.
  - left. exists r, k'. split; [reflexivity|]. split; [exact (proj1 (proj1 M))|].
    exact (RC_step hash wild k fuel a b r k' Hk Ha Hb E).
  - right. split; [reflexivity | exact M].
  - destruct M.
Qed.
Print Assumptions C23_merge_well_formed.

(** C23, lookups: on a well-formed context every index below [length] is valid,
    and emptiness tests succeed: [is_empty] recognises the empty context,
    [has_empty_path] the presence of the empty stack. *)
Theorem C23_lookups_in_range : forall c, wf c ->
  (forall i, (i < pc_length c)%nat ->
     exists r p, get_return_state c i = Val r /\ get_parent c i = Val p /\ nth_error (entries c) i = Some (r, p)) /\
  (exists e, pc_is_empty c = Val e /\ (e = true <-> c = EMPTY)) /\
  (exists e, has_empty_path c = Val e /\ (e = true <-> stands false c [])).
Proof. exact lookups_in_range. Qed.
Print Assumptions C23_lookups_in_range.

Definition ex_a : pctx := Array [3; 7; EMPTY_RETURN_STATE]
  [Some (Singleton 5 (Some EMPTY)); Some EMPTY; None].
Definition ex_b : pctx := Array [3; 6] [Some (Singleton 8 (Some EMPTY)); Some (Singleton 5 (Some EMPTY))].

Lemma ex_single r q : r <? EMPTY_RETURN_STATE = true -> wf q -> wf (Singleton r (Some q)).
Proof. intros H Hq. apply wf_single_some. split; [apply Z.ltb_lt; exact H | exact Hq]. Qed.

Example C21_C22_C23_nonvacuous :
  wf ex_a /\ wf ex_b /\
  merge (fun _ => 1) 9 false ex_a ex_b None =
    Val (Array [3; 6; 7; EMPTY_RETURN_STATE]
           [Some (Array [5; 8] [Some EMPTY; Some EMPTY]); Some (Singleton 5 (Some EMPTY)); Some EMPTY; None], None) /\
  merge (fun _ => 1) 9 true (Singleton 3 (Some EMPTY)) (Singleton 3 (Some (Singleton 9 (Some EMPTY)))) (Some []) =
    Val (Singleton 3 (Some EMPTY),
         Some [((Singleton 3 (Some EMPTY), Singleton 3 (Some (Singleton 9 (Some EMPTY)))), Singleton 3 (Some EMPTY));
               ((EMPTY, Singleton 9 (Some EMPTY)), EMPTY)]).
Proof.
  assert (W : forall r, r <? EMPTY_RETURN_STATE = true -> wf (Singleton r (Some EMPTY)))
    by (intros; apply ex_single; [assumption | apply wf_EMPTY]).
  split; [|split; [|split; vm_compute; reflexivity]].
  - apply wf_array; [repeat constructor | reflexivity | cbn; lia |].
    unfold ent_wf. cbn [combine In]. split; [|split].
    + intros r [H | [H | [H | []]]]; inversion H; reflexivity.
    + intros r q [H | [H | [H | []]]]; inversion H; reflexivity.
    + intros r q [H | [H | [H | []]]]; inversion H; subst; first [apply wf_EMPTY | apply W; reflexivity].
  - apply wf_array; [repeat constructor | reflexivity | cbn; lia |].
    unfold ent_wf. cbn [combine In]. split; [|split].
    + intros r [H | [H | []]]; inversion H; reflexivity.
    + intros r q [H | [H | []]]; inversion H; reflexivity.
    + intros r q [H | [H | []]]; inversion H; subst; first [apply wf_EMPTY | apply W; reflexivity].
Qed.

(** C24.  For every history of calls (with or without a fresh [visited] map),
    starting from the empty cache: every call returns a context equal to its
    argument, equal non-empty contexts are always answered with one and the same
    object, and the cache holds only entries equal to their keys. *)
Theorem C24_shared_context : forall deref calls, (forall a, wf (deref a)) ->
  exists st rs,
    run_shared deref {| sh_cache := []; sh_visited := [] |} calls = Val (st, rs) /\
    length rs = length calls /\
    (forall i f a r, nth_error calls i = Some (f, a) -> nth_error rs i = Some r -> deref r = deref a) /\
    (forall i j f a r g b t, nth_error calls i = Some (f, a) -> nth_error rs i = Some r ->
       nth_error calls j = Some (g, b) -> nth_error rs j = Some t ->
       deref a = deref b -> deref a <> EMPTY -> r = t) /\
    (forall key v, In (key, v) (sh_cache st) -> deref v = deref key).
Proof. exact shared_history. Qed.
Print Assumptions C24_shared_context.

Definition ex_heap (a : Z) : pctx :=
  if a =? 1 then Singleton 4 (Some EMPTY) else if a =? 2 then Singleton 4 (Some EMPTY)
  else if a =? 3 then Singleton 6 (Some (Singleton 4 (Some EMPTY))) else EMPTY.

Example C24_nonvacuous :
  (forall a, wf (ex_heap a)) /\
  run_shared ex_heap {| sh_cache := []; sh_visited := [] |} [(true, 1); (true, 3); (true, 2); (false, 0); (true, 3)] =
  Val ({| sh_cache := [(3, 3); (1, 1)]; sh_visited := [] |}, [1; 3; 1; 0; 3]).
Proof.
  split; [|vm_compute; reflexivity]. intros a. unfold ex_heap.
  repeat match goal with |- context [if ?c then _ else _] => destruct c end;
    repeat (apply ex_single; [reflexivity|]); apply wf_EMPTY.
Qed.

(** C25.  The context of a parse stack (invoking states, current rule first; the
    last rule has no parent) represents exactly one call stack: the follow states
    of the invoking states, innermost first, up to the first rule context that
    was not invoked by another rule. *)
Theorem C25_from_rule_context : forall fo follow stack,
  (forall s, In s stack -> s <> -1 -> fo s = Some (follow s) /\ follow s < EMPTY_RETURN_STATE) ->
  exists c, from_rule_context fo stack = Val c /\ wf c /\
    forall st, stands false c st <-> st = return_chain stack follow.
Proof. exact from_rule_ok. Qed.
Print Assumptions C25_from_rule_context.

Example C25_nonvacuous :
  from_rule_context (fun s => Some (s + 100)) [7; 3; 9; -1] =
    Val (Singleton 107 (Some (Singleton 103 (Some (Singleton 109 (Some EMPTY)))))) /\
  return_chain [7; 3; 9; -1] (fun s => s + 100) = [107; 103; 109].
Proof. vm_compute. split; reflexivity. Qed.
