(** C103: equality and hashing of contexts, configurations, sets and DFA states
    are what the hash maps of the prediction need, and the hashes stored in
    contexts never show.

    [finish] is the hash function, any at all; [ptr_eq] tells which contexts
    share an address, in any way such that one address holds one value. *)
From Coq Require Import ZArith List Bool Lia.
From Verif Require Import Outcome AtnModel PredContextModel SemContextModel SemContextProofs LexerModel
  CachedHashModel CachedHashSpec CachedHashProofs.
Import ListNotations.
Local Open Scope Z_scope.

(** Two contexts are equal exactly if they say the same, however each of them
    was made, and then their hashes are equal, too. *)
Theorem C103_contexts : forall finish ptr_eq a b, one_value ptr_eq ->
  made finish ptr_eq a -> made finish ptr_eq b ->
  (arc_eqb ptr_eq a b = true <-> plain a = plain b) /\
  (plain a = plain b -> hash_code a = hash_code b).
Proof.
  intros finish ptr_eq a b P Ma Mb. destruct (made_equal finish ptr_eq P a b Ma Mb) as (E & F).
  split; auto. intros H. now rewrite (F H).
Qed.
Print Assumptions C103_contexts.

(** Merging, with its comparisons of addresses and stored hashes, does what
    merging does without them, on any contexts and caches of contexts that can
    be made, and makes such contexts and caches again. *)
Theorem C103_merge : forall finish ptr_eq, one_value ptr_eq ->
  exists hash, (forall c, made finish ptr_eq c -> hash (plain c) = hash_code c) /\
  forall fuel wild a b k,
    made finish ptr_eq a -> made finish ptr_eq b -> made_cache finish ptr_eq k ->
    plain_result (hmerge finish ptr_eq fuel wild a b k) =
      merge hash fuel wild (plain a) (plain b) (plain_cache k) /\
    (forall r k', hmerge finish ptr_eq fuel wild a b k = Val (r, k') ->
       made finish ptr_eq r /\ made_cache finish ptr_eq k').
Proof.
  intros finish ptr_eq P. exists (thehash finish). split.
  - intros c M. apply made_dressed in M as (p & E & ->); auto. now rewrite plain_dress.
  - intros fuel wild a b k Ma Mb Mk. now apply made_merge.
Qed.
Print Assumptions C103_merge.

(** The contexts of parse stacks likewise. *)
Theorem C103_stacks : forall finish follow stack,
  plain_one (hfrom_rule_context finish follow stack) = from_rule_context follow stack.
Proof.
  intros finish follow stack. destruct (stack_dress finish follow stack) as (-> & _).
  destruct (from_rule_context follow stack) as [c| |]; cbn; auto. now rewrite plain_dress.
Qed.
Print Assumptions C103_stacks.

(** Values that are equal write the same to every hasher: contexts (also ones
    whose hash was never computed), predicates, configurations, their sets, DFA
    states, lookup keys and lists of lexer actions. *)
Theorem C103_hash_law : forall ptr_eq, one_value ptr_eq ->
  (forall a b, arc_eqb ptr_eq a b = true -> hash_ctx a = hash_ctx b) /\
  (forall a b, sem_eqb a b = true -> hash_sem a = hash_sem b) /\
  (forall a b, executor_eqb a b = true -> hash_executor a = hash_executor b) /\
  (forall a b, hconfig_eqb ptr_eq a b = true -> hash_config a = hash_config b) /\
  (forall a b, hset_eqb ptr_eq a b = true -> hash_set a = hash_set b) /\
  (forall a b, hdstate_eqb ptr_eq a b = true -> hash_dstate a = hash_dstate b) /\
  (forall a b, hkey_eqb ptr_eq a b = true -> hash_key a = hash_key b).
Proof.
  intros ptr_eq P. split; [|split; [|split; [|split; [|split; [|split]]]]].
  - now apply arc_hash.
  - apply sem_hash.
  - intros a b H. now apply executor_eq in H as ->.
  - now apply config_hash.
  - now apply set_hash.
  - intros a b H. now apply (set_hash ptr_eq P).
  - now apply key_hash.
Qed.
Print Assumptions C103_hash_law.

(** Configurations that a lexer or parser makes are equal exactly if they have
    the same state, alternative, stacks, predicates and filter flag, and, in a
    lexer, the same actions and non-greedy flag. *)
Theorem C103_configs : forall finish ptr_eq actions_hash a b, one_value ptr_eq ->
  made_config finish ptr_eq actions_hash a -> made_config finish ptr_eq actions_hash b ->
  (hconfig_eqb ptr_eq a b = true <->
     hc_state a = hc_state b /\ hc_alt a = hc_alt b /\
     option_map plain (hc_context a) = option_map plain (hc_context b) /\
     type_says (hc_type a) = type_says (hc_type b) /\
     hc_semantic a = hc_semantic b /\ hc_suppressed a = hc_suppressed b).
Proof. intros. eapply config_equal; eauto. Qed.
Print Assumptions C103_configs.

(** Parser sets find a configuration by state, alternative and predicates, and
    by nothing else. *)
Theorem C103_keys : forall finish ptr_eq a b,
  hkey_eqb ptr_eq (local_hash_key finish a) (local_hash_key finish b) = true <->
  hc_state a = hc_state b /\ hc_alt a = hc_alt b /\ hc_semantic a = hc_semantic b.
Proof.
  intros finish ptr_eq a b. unfold local_hash_key, hkey_eqb.
  rewrite !andb_true_iff, !Z.eqb_eq, sem_eqb_eq. split.
  - intros (((_ & E1) & E2) & E3). auto.
  - intros (-> & -> & ->). auto.
Qed.
Print Assumptions C103_keys.

(** Why arrays have to go through [alloc], as they do wherever the crate lets
    one out: before, the stored hash is 0, and an array is different from the
    same array after [alloc] unless its hash happens to be 0. *)
Theorem C103_unhashed : forall finish ptr_eq ps rs, one_value ptr_eq ->
  finish (ctx_writes (new_array ps rs)) <> 0 ->
  plain (new_array ps rs) = plain (alloc finish (new_array ps rs)) /\
  arc_eqb ptr_eq (new_array ps rs) (alloc finish (new_array ps rs)) = false.
Proof.
  intros finish ptr_eq ps rs P N. split; auto.
  destruct (arc_eqb _ _ _) eqn:E; auto. exfalso. apply arc_hash in E; auto. injection E as E. auto.
Qed.
Print Assumptions C103_unhashed.

(** ** Example: a hash function, two ways to make the same stacks (with
    different stored hashes on the way), a configuration for each *)
Definition demo_finish (l : list write) : Z :=
  fold_left (fun h w => match w with WI32 v | WU64 v | WIsize v | WUsize v | WU8 v => (h * 31 + v) mod 65521 end) l 17.
Definition demo_ptr (_ _ : hctx) : bool := false.
Definition demo_caller (r : Z) : hctx := new_singleton demo_finish (Some (new_empty demo_finish)) r.
Definition demo_merged : outcome (hctx * option hcache) :=
  hmerge demo_finish demo_ptr 10 false (demo_caller 5) (demo_caller 3) (Some []).
Definition demo_built : hctx :=
  alloc demo_finish (new_array [Some (new_empty demo_finish); Some (new_empty demo_finish)] [3; 5]).
Definition demo_config (c : hctx) : hconfig := HConfig false 4 1 (Some c) NONE 0 BaseATNConfig.

Example C103_nonvacuous :
  one_value demo_ptr /\
  made demo_finish demo_ptr demo_built /\
  (exists r, demo_merged = Val (r, Some [((demo_caller 5, demo_caller 3), r)]) /\
     made demo_finish demo_ptr r /\
     arc_eqb demo_ptr r demo_built = true /\ hash_code r = hash_code demo_built /\ hash_code r <> 0 /\
     arc_eqb demo_ptr r (demo_caller 5) = false /\
     hconfig_eqb demo_ptr (demo_config r) (demo_config demo_built) = true /\
     hconfig_eqb demo_ptr (demo_config r) (demo_config (demo_caller 3)) = false /\
     hash_config (demo_config r) <> hash_config (demo_config (demo_caller 3)) /\
     made_config demo_finish demo_ptr (fun _ => 0) (demo_config r)) /\
  demo_finish (ctx_writes (new_array [None; None] [1; 2])) <> 0.
Proof.
  assert (P : one_value demo_ptr) by (intros a b; discriminate).
  assert (E : made demo_finish demo_ptr (new_empty demo_finish)) by constructor.
  assert (C : forall r, made demo_finish demo_ptr (demo_caller r)).
  { intros r. apply Made_singleton. intros q [= <-]. apply E. }
  assert (B : made demo_finish demo_ptr demo_built).
  { apply Made_array; auto. intros q [I|[I|[]]]; injection I as <-; apply E. }
  split; [exact P|]. split; [exact B|]. split; [|vm_compute; discriminate].
  assert (M : demo_merged = Val (demo_built, Some [((demo_caller 5, demo_caller 3), demo_built)]))
    by (vm_compute; reflexivity).
  exists demo_built. split; [exact M|]. split; [exact B|].
  split; [vm_compute; reflexivity|]. split; [reflexivity|]. split; [vm_compute; discriminate|].
  split; [vm_compute; reflexivity|]. split; [vm_compute; reflexivity|].
  split; [vm_compute; reflexivity|]. split; [vm_compute; discriminate|].
  split.
  - intros x [= <-]. exact B.
  - intros e p. discriminate.
Qed.
