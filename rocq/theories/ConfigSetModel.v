(** Model of /repo/src/atn_config.rs, /repo/src/atn_config_set.rs and
    /repo/src/prediction_mode.rs, and of the small set analyses in
    /repo/src/parser_atn_simulator.rs 1364-1378, 1403-1414.

    Simplifications, valid for the whole file:
    - [isize]/[usize] are [Z]; alternatives are used as indices of bit sets
      ([alt as usize]) without the wrap of negative numbers, which are never used
      as alternatives;
    - the field [config_type] is of an arbitrary type [X] with a decidable
      equality [x_eqb] ([unit] for parser configurations);
    - [cached_hash] of a set is not modelled (it is never read);
    - the hash stored inside a [Key::Partial] is a function of the other
      components, so it does not take part in the comparison here. *)
From Coq Require Import ZArith List Bool.
From Verif Require Import Outcome PredContextModel SemContextModel.
Import ListNotations.
Local Open Scope Z_scope.
Local Open Scope outcome_scope.

(** atn_config.rs 14-27 *)
Record config (X : Type) : Type := Config {
  c_state : Z;
  c_alt : Z;
  c_ctx : option pctx;
  c_sem : sem;
  c_reach : Z;     (* reaches_into_outer_context *)
  c_pfs : bool;    (* precedence_filter_suppressed *)
  c_type : X       (* config_type *)
}.
Arguments Config {X} _ _ _ _ _ _ _.
Arguments c_state {X} _.
Arguments c_alt {X} _.
Arguments c_ctx {X} _.
Arguments c_sem {X} _.
Arguments c_reach {X} _.
Arguments c_pfs {X} _.
Arguments c_type {X} _.

(** atn_config_set.rs 39-43: which key the set uses *)
Inductive hasher : Type := LocalKey | FullKey.

Section Configs.
  Variable X : Type.
  Variable x_eqb : X -> X -> bool.
  Variable hash : pctx -> Z.

  (** atn_config.rs 31-41, [PartialEq for ATNConfig] (does not compare
      [reaches_into_outer_context]) *)
  Definition config_eqb (a b : config X) : bool :=
    (c_state a =? c_state b) && (c_alt a =? c_alt b) && opt_pctx_eqb (c_ctx a) (c_ctx b) &&
    x_eqb (c_type a) (c_type b) && sem_eqb (c_sem a) (c_sem b) && Bool.eqb (c_pfs a) (c_pfs b).

  (** atn_config_set.rs 45-58 and 118-134: equality of lookup keys *)
  Definition key_eqb (h : hasher) (a b : config X) : bool :=
    match h with
    | LocalKey => (c_state a =? c_state b) && (c_alt a =? c_alt b) && sem_eqb (c_sem a) (c_sem b)
    | FullKey => config_eqb a b
    end.

  (** atn_config_set.rs 17-43 *)
  Record config_set : Type := ConfigSet {
    config_lookup : list (config X * nat);  (* key (as the configuration it was made from), index *)
    configs : list (config X);
    conflicting_alts : list Z;
    dips_into_outer_context : bool;
    full_ctx : bool;
    has_semantic_context : bool;
    read_only : bool;
    unique_alt : Z;
    set_hasher : hasher
  }.

  (** atn_config_set.rs 95-108 *)
  Definition new_base_config_set (full : bool) : config_set :=
    ConfigSet [] [] [] false full false false 0 LocalKey.
  (** atn_config_set.rs 111-116 *)
  Definition new_ordered : config_set := ConfigSet [] [] [] false true false false 0 FullKey.

  Fixpoint lookup (h : hasher) (l : list (config X * nat)) (c : config X) : option nat :=
    match l with
    | [] => None
    | (k, i) :: l' => if key_eqb h k c then Some i else lookup h l' c
    end.

  Fixpoint set_nth {A} (n : nat) (x : A) (l : list A) : list A :=
    match n, l with
    | _, [] => []
    | O, _ :: l' => x :: l'
    | S n', y :: l' => y :: set_nth n' x l'
    end.

  (** atn_config_set.rs 136-181, [add_cached]; also 183-185, [add], with no cache *)
  Definition add_cached (s : config_set) (c : config X) (k : option cache)
      : outcome (config_set * option cache) :=
    if read_only s then Panics
    else
      let hsc := if sem_eqb (c_sem c) NONE then has_semantic_context s else true in
      let dips := if c_reach c >? 0 then true else dips_into_outer_context s in
      match lookup (set_hasher s) (config_lookup s) c with
      | Some i =>
          let! existing := unwrap (nth_error (configs s) i) in
          let root_is_wildcard := negb (full_ctx s) in
          let! ea := unwrap (c_ctx existing) in
          let! cb := unwrap (c_ctx c) in
          let! (merged, k) := merge hash (S (height ea)) root_is_wildcard ea cb k in
          let existing' := Config (c_state existing) (c_alt existing) (Some merged) (c_sem existing)
                             (Z.max (c_reach existing) (c_reach c))
                             (if c_pfs c then true else c_pfs existing) (c_type existing) in
          Val (ConfigSet (config_lookup s) (set_nth i existing' (configs s)) (conflicting_alts s) dips
                 (full_ctx s) hsc (read_only s) (unique_alt s) (set_hasher s), k)
      | None =>
          Val (ConfigSet ((c, length (configs s)) :: config_lookup s) (configs s ++ [c]) (conflicting_alts s)
                 dips (full_ctx s) hsc (read_only s) (unique_alt s) (set_hasher s), k)
      end.

  (** a sequence of [add_cached] calls sharing one merge cache *)
  Fixpoint add_all (s : config_set) (cs : list (config X)) (k : option cache)
      : outcome (config_set * option cache) :=
    match cs with
    | [] => Val (s, k)
    | c :: cs' => let! (s, k) := add_cached s c k in add_all s cs' k
    end.

  (** atn_config_set.rs 226-228 *)
  Definition set_read_only (s : config_set) (v : bool) : config_set :=
    ConfigSet (config_lookup s) (configs s) (conflicting_alts s) (dips_into_outer_context s)
      (full_ctx s) (has_semantic_context s) v (unique_alt s) (set_hasher s).

  (** ** Bit sets (crate bit_set): ascending lists without duplicates *)
  Fixpoint bs_insert (x : Z) (l : list Z) : list Z :=
    match l with
    | [] => [x]
    | y :: l' => if x <? y then x :: l else if x =? y then l else y :: bs_insert x l'
    end.
  Definition bs_extend (l xs : list Z) : list Z := fold_left (fun acc x => bs_insert x acc) xs l.

  (** atn_config_set.rs 235-240 *)
  Definition set_get_alts (cs : list (config X)) : list Z :=
    fold_left (fun acc c => bs_insert (c_alt c) acc) cs [].

  (** ** prediction_mode.rs *)

  (** A hash map from (state, context) to bit sets is a list in first-insertion
      order; draining it (line 166) goes through an arbitrary reordering [order]. *)
  Fixpoint alts_entry (m : list (Z * pctx * list Z)) (st : Z) (ctx : pctx) (alt : Z) : list (Z * pctx * list Z) :=
    match m with
    | [] => [(st, ctx, bs_insert alt [])]
    | (st', ctx', alts) :: m' =>
        if (st' =? st) && pctx_eqb ctx' ctx then (st', ctx', bs_insert alt alts) :: m'
        else (st', ctx', alts) :: alts_entry m' st ctx alt
    end.
  Fixpoint configs_to_alts (m : list (Z * pctx * list Z)) (cs : list (config X)) : outcome (list (Z * pctx * list Z)) :=
    match cs with
    | [] => Val m
    | c :: cs' => let! ctx := unwrap (c_ctx c) in configs_to_alts (alts_entry m (c_state c) ctx (c_alt c)) cs'
    end.
  Variable order : list (list Z) -> list (list Z).
  (** prediction_mode.rs 157-167 *)
  Definition get_conflicting_alt_subsets (cs : list (config X)) : outcome (list (list Z)) :=
    let! m := configs_to_alts [] cs in Val (order (map snd m)).

  (** prediction_mode.rs 169-176 *)
  Fixpoint state_entry (m : list (Z * list Z)) (st : Z) (alt : Z) : list (Z * list Z) :=
    match m with
    | [] => [(st, bs_insert alt [])]
    | (st', alts) :: m' =>
        if st' =? st then (st', bs_insert alt alts) :: m' else (st', alts) :: state_entry m' st alt
    end.
  Definition get_state_to_alt_map (cs : list (config X)) : list (Z * list Z) :=
    fold_left (fun m c => state_entry m (c_state c) (c_alt c)) cs [].

  (** prediction_mode.rs 178-186 *)
  Definition has_state_associated_with_one_alt (cs : list (config X)) : bool :=
    existsb (fun e => Nat.eqb (length (snd e)) 1) (get_state_to_alt_map cs).

  (** prediction_mode.rs 134-136 *)
  Definition has_non_conflicting_alt_set (altsets : list (list Z)) : bool :=
    existsb (fun s => Nat.eqb (length s) 1) altsets.
  (** prediction_mode.rs 138-145 *)
  Definition has_conflicting_alt_set (altsets : list (list Z)) : bool :=
    existsb (fun s => Nat.ltb 1 (length s)) altsets.
  (** prediction_mode.rs 124-126 *)
  Definition all_subsets_conflict (altsets : list (list Z)) : bool :=
    negb (has_non_conflicting_alt_set altsets).
  (** prediction_mode.rs 128-132; [BitSet] equality compares elements *)
  Definition all_subsets_equal (altsets : list (list Z)) : bool :=
    match altsets with
    | [] => true
    | first :: rest => forallb (fun s => zlist_eqb s first) rest
    end.
  (** prediction_mode.rs 149-154 *)
  Definition get_alts (altsets : list (list Z)) : list Z :=
    fold_left (fun acc it => bs_extend acc it) altsets [].

  (** atn.rs, [INVALID_ALT] *)
  Definition INVALID_ALT : Z := 0.
  (** prediction_mode.rs 188-199 *)
  Fixpoint single_viable_loop (viable : list Z) (min_alt : Z) (altsets : list (list Z)) : outcome Z :=
    match altsets with
    | [] => Val min_alt
    | alts :: rest =>
        let! m := unwrap (hd_error alts) in
        let viable := bs_insert m viable in
        if Nat.ltb 1 (length viable) then Val INVALID_ALT
        else single_viable_loop viable m rest
    end.
  Definition get_single_viable_alt (altsets : list (list Z)) : outcome Z :=
    single_viable_loop [] INVALID_ALT altsets.

  (** parser_atn_simulator.rs 1364-1367 *)
  Definition get_conflicting_alts (cs : list (config X)) : outcome (list Z) :=
    let! altsets := get_conflicting_alt_subsets cs in Val (get_alts altsets).

  (** parser_atn_simulator.rs 1370-1378 *)
  Definition get_conflicting_alts_or_unique_alt (s : config_set) : list Z :=
    if negb (unique_alt s =? INVALID_ALT) then bs_insert (unique_alt s) [] else conflicting_alts s.

  (** parser_atn_simulator.rs 1403-1414, [get_unique_alt] *)
  Fixpoint unique_alt_loop (alt : Z) (cs : list (config X)) : Z :=
    match cs with
    | [] => alt
    | c :: cs' =>
        if alt =? INVALID_ALT then unique_alt_loop (c_alt c) cs'
        else if negb (c_alt c =? alt) then INVALID_ALT
        else unique_alt_loop alt cs'
    end.
  Definition get_unique_alt (cs : list (config X)) : Z := unique_alt_loop INVALID_ALT cs.

  (** prediction_mode.rs 19-78: prediction modes *)
  Inductive pmode : Type := SLL | LL | LL_EXACT_AMBIG_DETECTION.

  (** prediction_mode.rs 86-114.  In SLL mode, a set with predicates is first
      copied without them (full-context merging, no cache). *)
  Definition strip_sem (x0 : X) (c : config X) : config X :=
    Config (c_state c) (c_alt c) (c_ctx c) NONE 0 false x0.
  Definition has_sll_conflict_terminating_prediction (x0 : X) (mode : pmode) (s : config_set) : outcome bool :=
    let! cs :=
      match mode with
      | SLL => if has_semantic_context s then
                 let! (dup, _) := add_all (new_base_config_set true) (map (strip_sem x0) (configs s)) None in
                 Val (configs dup)
               else Val (configs s)
      | _ => Val (configs s)
      end in
    let! altsets := get_conflicting_alt_subsets cs in
    Val (has_conflicting_alt_set altsets && negb (has_state_associated_with_one_alt cs)).
End Configs.

Arguments configs {X} _.
Arguments config_lookup {X} _.
Arguments conflicting_alts {X} _.
Arguments dips_into_outer_context {X} _.
Arguments full_ctx {X} _.
Arguments has_semantic_context {X} _.
Arguments read_only {X} _.
Arguments unique_alt {X} _.
Arguments set_hasher {X} _.
