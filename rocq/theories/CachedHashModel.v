(** Model of the stored hashes of prediction contexts and of the [Hash] and
    [PartialEq] implementations the prediction's hash maps rely on:
    /repo/src/prediction_context.rs, atn_config.rs, atn_config_set.rs,
    dfa_state.rs, semantic_context.rs, lexer_action.rs, lexer_action_executor.rs.

    PredContextModel.v leaves the field [cached_hash] and [Arc::ptr_eq] out;
    here both are modelled, and CachedHashProps.v shows that nothing was lost.

    Simplifications, valid for the whole file:
    - [isize] and [usize] are [Z];
    - [Hash] implementations are the sequence of values they write to the
      hasher; the hasher (murmur3, an external crate) is the Section variable
      [finish] from what was written to the 32 bits used of its result;
    - an [Arc] is the value it points to; [Arc::ptr_eq] is the Section variable
      [ptr_eq], of which the theorems only assume that one address holds one
      value;
    - a hash map is an association list searched by key equality, which is what
      a hash map does if equal keys have equal hashes (C103_hash_law). *)
From Coq Require Import ZArith List Bool.
From Verif Require Import Outcome AtnModel PredContextModel SemContextModel LexerModel.
Import ListNotations.
Local Open Scope Z_scope.
Local Open Scope outcome_scope.

(** [Hasher::write_i32], [write_u64], [write_isize], [write_usize], [write_u8] *)
Inductive write : Type := WI32 (v : Z) | WU64 (v : Z) | WIsize (v : Z) | WUsize (v : Z) | WU8 (v : Z).

(** [x as i32] *)
Definition as_i32 (x : Z) : Z := (x + 2147483648) mod 4294967296 - 2147483648.

(** prediction_context.rs 28-31, 44-48, 74-78, with the stored hash *)
Inductive hctx : Type :=
| HSingleton (cached_hash : Z) (return_state : Z) (parent_ctx : option hctx)
| HArray (cached_hash : Z) (return_states : list Z) (parents : list (option hctx)).

(** prediction_context.rs 269-274 *)
Definition hash_code (c : hctx) : Z :=
  match c with HSingleton h _ _ | HArray h _ _ => h end.

(** prediction_context.rs 186-204: a parent's share of the hash *)
Definition parent_write (p : option hctx) : write :=
  WI32 (match p with None => 0 | Some x => hash_code x end).

(** prediction_context.rs 184-210: what [calc_hash] writes *)
Definition ctx_writes (c : hctx) : list write :=
  match c with
  | HSingleton _ r p => [parent_write p; WI32 (as_i32 r)]
  | HArray _ rs ps => map parent_write ps ++ map (fun r => WI32 (as_i32 r)) rs
  end.

(** prediction_context.rs 139-143, [Hash for PredictionContext] *)
Definition hash_ctx (c : hctx) : list write := [WI32 (hash_code c)].

(** parser_atn_simulator.rs 125-129, [MergeCache] *)
Definition hcache : Type := list ((hctx * hctx) * hctx).

Section Contexts.
  Variable finish : list write -> Z.
  Variable ptr_eq : hctx -> hctx -> bool.

  (** prediction_context.rs 184-221 *)
  Definition calc_hash (c : hctx) : hctx :=
    match c with
    | HSingleton _ r p => HSingleton (finish (ctx_writes c)) r p
    | HArray _ rs ps => HArray (finish (ctx_writes c)) rs ps
    end.

  (** prediction_context.rs 287-291 *)
  Definition alloc (c : hctx) : hctx := calc_hash c.

  (** prediction_context.rs 151-160: the hash is left 0 *)
  Definition new_array (parents : list (option hctx)) (return_states : list Z) : hctx :=
    HArray 0 return_states parents.
  (** prediction_context.rs 162-172 *)
  Definition new_singleton (parent : option hctx) (return_state : Z) : hctx :=
    calc_hash (HSingleton 0 return_state parent).
  (** prediction_context.rs 174-182, 145-148 *)
  Definition new_empty : hctx := calc_hash (HSingleton 0 EMPTY_RETURN_STATE None).

  (** prediction_context.rs 33-41, 50-57, 59-71, 80-87 *)
  Fixpoint hctx_eqb (a b : hctx) {struct a} : bool :=
    let opt_eq (x : option hctx) (y : option hctx) : bool :=
      match x, y with
      | Some s, Some o => ptr_eq s o || hctx_eqb s o
      | None, None => true
      | _, _ => false
      end in
    let fix zip_all (x y : list (option hctx)) {struct x} : bool :=
      match x, y with
      | u :: x', v :: y' => opt_eq u v && zip_all x' y'
      | _, _ => true
      end in
    match a, b with
    | HArray h rs ps, HArray h' rs' ps' => (h =? h') && zlist_eqb rs rs' && zip_all ps ps'
    | HSingleton h r p, HSingleton h' r' p' => (h =? h') && (r =? r') && opt_eq p p'
    | _, _ => false
    end.

  (** [==] on [Arc<PredictionContext>]: the standard library compares the
      addresses first, as line 67 does itself *)
  Definition arc_eqb (a b : hctx) : bool := ptr_eq a b || hctx_eqb a b.
  (** [==] on [Option<Arc<PredictionContext>>] *)
  Definition opt_hctx_eqb (x y : option hctx) : bool :=
    match x, y with
    | Some s, Some o => arc_eqb s o
    | None, None => true
    | _, _ => false
    end.

  (** prediction_context.rs 89-94 *)
  Definition hsingleton_is_empty (r : Z) (p : option hctx) : bool :=
    (r =? EMPTY_RETURN_STATE) && match p with None => true | Some _ => false end.
  (** prediction_context.rs 256-261 *)
  Definition hpc_is_empty (c : hctx) : outcome bool :=
    match c with
    | HSingleton _ r p => Val (hsingleton_is_empty r p)
    | HArray _ rs _ => let! r := unwrap (nth_error rs 0) in Val (r =? EMPTY_RETURN_STATE)
    end.
  (** prediction_context.rs 276-285 *)
  Definition hto_array (c : hctx) : list Z * list (option hctx) :=
    match c with
    | HSingleton _ r p => ([r], [p])
    | HArray _ rs ps => (rs, ps)
    end.

  Fixpoint hcache_get (k : hcache) (a b : hctx) : option hctx :=
    match k with
    | [] => None
    | ((x, y), r) :: k' => if arc_eqb x a && arc_eqb y b then Some r else hcache_get k' a b
    end.

  (** prediction_context.rs 545-558 *)
  Fixpoint huniq_get (u : list (option hctx)) (p : option hctx) : option (option hctx) :=
    match u with
    | [] => None
    | x :: u' => if opt_hctx_eqb x p then Some x else huniq_get u' p
    end.
  Definition huniq_parents (ps : list (option hctx)) : list (option hctx) :=
    fold_left (fun u p => match huniq_get u p with Some _ => u | None => u ++ [p] end) ps [].
  Definition hcombine_common_parents (ps : list (option hctx)) : outcome (list (option hctx)) :=
    map_unwrap (fun p => unwrap (huniq_get (huniq_parents ps) p)) ps.

  (** prediction_context.rs 401-435 *)
  Definition hmerge_root (ra : Z) (pa : option hctx) (rb : Z) (pb : option hctx)
      (root_is_wildcard : bool) : option hctx :=
    if root_is_wildcard then
      if hsingleton_is_empty ra pa || hsingleton_is_empty rb pb then Some new_empty else None
    else if hsingleton_is_empty ra pa && hsingleton_is_empty rb pb then Some new_empty
    else if hsingleton_is_empty ra pa then Some (alloc (new_array [pb; None] [rb; EMPTY_RETURN_STATE]))
    else if hsingleton_is_empty rb pb then Some (alloc (new_array [pa; None] [ra; EMPTY_RETURN_STATE]))
    else None.

  Definition hrec_merge : Type := hctx -> hctx -> option hcache -> outcome (hctx * option hcache).

  (** prediction_context.rs 358-399; the result of either branch goes through
      [alloc] in line 397.  [ha] and [hb] are the stored hashes of the operands,
      which [clone] keeps. *)
  Definition hmerge_singletons (rec : hrec_merge) (ha ra : Z) (pa : option hctx)
      (hb rb : Z) (pb : option hctx) (wild : bool) (k : option hcache)
      : outcome (hctx * option hcache) :=
    match hmerge_root ra pa rb pb wild with
    | Some r => Val (r, k)
    | None =>
        if ra =? rb then
          let! qa := unwrap pa in
          let! qb := unwrap pb in
          let! (parent, k) := rec qa qb k in
          Val (alloc (if ptr_eq parent qa then HSingleton ha ra pa
                      else if ptr_eq parent qb then HSingleton hb rb pb
                      else new_singleton (Some parent) ra), k)
        else
          let '(p0, p1) := if opt_hctx_eqb pa pb then (pa, pa) else (pa, pb) in
          Val (alloc (if ra <=? rb then HArray (-1) [ra; rb] [p0; p1]
                      else HArray (-1) [rb; ra] [p1; p0]), k)
    end.

  (** prediction_context.rs 489-500 *)
  Fixpoint happend_rest (rs : list Z) (ps : list (option hctx)) : outcome (list Z * list (option hctx)) :=
    match rs, ps with
    | [], _ => Val ([], [])
    | r :: rs', p :: ps' => let! (x, y) := happend_rest rs' ps' in Val (r :: x, p :: y)
    | _ :: _, [] => Panics
    end.

  (** prediction_context.rs 453-500 *)
  Fixpoint hmerge_arrays_loop (fuel : nat) (rec : hrec_merge)
      (ars : list Z) (aps : list (option hctx)) (brs : list Z) (bps : list (option hctx))
      (k : option hcache) {struct fuel}
      : outcome (list Z * list (option hctx) * option hcache) :=
    match fuel with
    | O => NoFuel
    | S fuel' =>
        match aps, bps with
        | ap :: aps', bp :: bps' =>
            match ars, brs with
            | ra :: ars', rb :: brs' =>
                if ra =? rb then
                  let both := (ra =? EMPTY_RETURN_STATE) &&
                              match ap, bp with None, None => true | _, _ => false end in
                  let ax_ax := match ap, bp with Some x, Some y => arc_eqb x y | _, _ => false end in
                  if both || ax_ax then
                    let! (rs, ps, k) := hmerge_arrays_loop fuel' rec ars' aps' brs' bps' k in
                    Val (ra :: rs, ap :: ps, k)
                  else
                    let! qa := unwrap ap in
                    let! qb := unwrap bp in
                    let! (m, k) := rec qa qb k in
                    let! (rs, ps, k) := hmerge_arrays_loop fuel' rec ars' aps' brs' bps' k in
                    Val (ra :: rs, Some m :: ps, k)
                else if ra <? rb then
                  let! (rs, ps, k) := hmerge_arrays_loop fuel' rec ars' aps' brs bps k in
                  Val (ra :: rs, ap :: ps, k)
                else
                  let! (rs, ps, k) := hmerge_arrays_loop fuel' rec ars aps brs' bps' k in
                  Val (rb :: rs, bp :: ps, k)
            | _, _ => Panics
            end
        | _, _ =>
            let! (x1, y1) := happend_rest ars aps in
            let! (x2, y2) := happend_rest brs bps in
            Val (x1 ++ x2, y1 ++ y2, k)
        end
    end.

  (** prediction_context.rs 437-518; the result's hash is -1 until line 335 *)
  Definition hmerge_arrays (rec : hrec_merge) (a b : list Z * list (option hctx)) (k : option hcache)
      : outcome (hctx * option hcache) :=
    let '(ars, aps) := a in
    let '(brs, bps) := b in
    let! (rs, ps, k) := hmerge_arrays_loop (S (length aps + length bps)) rec ars aps brs bps k in
    let! ps := hcombine_common_parents ps in
    Val (HArray (-1) rs ps, k).

  (** prediction_context.rs 293-356; fuel bounds the recursion depth *)
  Fixpoint hmerge (fuel : nat) (wild : bool) (a b : hctx) (k : option hcache) {struct fuel}
      : outcome (hctx * option hcache) :=
    match fuel with
    | O => NoFuel
    | S fuel' =>
        if arc_eqb a b then Val (a, k)
        else
          let old := match k with
                     | None => None
                     | Some c => match hcache_get c a b with Some r => Some r | None => hcache_get c b a end
                     end in
          match old with
          | Some r => Val (r, k)
          | None =>
              let finished (x : outcome (hctx * option hcache)) :=
                let! (r, k) := x in
                if hash_code r =? 0 then Panics
                else Val (r, match k with None => None | Some c => Some (((a, b), r) :: c) end) in
              (* lines 332-343: [alloc], then one of the operands if it is equal *)
              let arrays :=
                let! (m, k) := hmerge_arrays (hmerge fuel' wild) (hto_array a) (hto_array b) k in
                let r := alloc m in
                Val (if hctx_eqb r a then a else if hctx_eqb r b then b else r, k) in
              match a, b with
              | HSingleton ha ra pa, HSingleton hb rb pb =>
                  finished (hmerge_singletons (hmerge fuel' wild) ha ra pa hb rb pb wild k)
              | _, _ =>
                  if wild then
                    let! ea := hpc_is_empty a in
                    if ea then Val (new_empty, k)
                    else
                      let! eb := hpc_is_empty b in
                      if eb then Val (new_empty, k)
                      else finished arrays
                  else finished arrays
              end
          end
    end.

  (** prediction_context.rs 520-543, as [PredContextModel.from_rule_context] *)
  Fixpoint hfrom_rule_context (follow : Z -> option Z) (stack : list Z) : outcome hctx :=
    match stack with
    | [] => Val new_empty
    | invoking :: parents =>
        match parents with
        | [] => Val new_empty
        | _ :: _ =>
            if invoking =? -1 then Val new_empty
            else
              let! parent := hfrom_rule_context follow parents in
              let! f := unwrap (follow invoking) in
              Val (alloc (new_singleton (Some parent) f))
        end
    end.
End Contexts.

(** semantic_context.rs 21, derived [Hash]: the number of the variant, then its
    fields; a vector is its length, then its elements *)
Fixpoint hash_sem (s : sem) : list write :=
  match s with
  | Predicate r p d => [WIsize 0; WIsize r; WIsize p; WU8 (if d then 1 else 0)]
  | Precedence n => [WIsize 1; WIsize n]
  | And l => WIsize 2 :: WUsize (Z.of_nat (length l)) :: flat_map hash_sem l
  | Or l => WIsize 3 :: WUsize (Z.of_nat (length l)) :: flat_map hash_sem l
  end.

(** lexer_action.rs 14, derived [Hash] *)
Fixpoint hash_action (a : lexer_action) : list write :=
  match a with
  | LexerChannelAction x => [WIsize 0; WIsize x]
  | LexerCustomAction r i => [WIsize 1; WIsize r; WIsize i]
  | LexerModeAction x => [WIsize 2; WIsize x]
  | LexerMoreAction => [WIsize 3]
  | LexerPopModeAction => [WIsize 4]
  | LexerPushModeAction x => [WIsize 5; WIsize x]
  | LexerSkipAction => [WIsize 6]
  | LexerTypeAction x => [WIsize 7; WIsize x]
  | LexerIndexedCustomAction o x => [WIsize 8; WIsize o] ++ hash_action x
  end.

(** lexer_action_executor.rs 16-20 *)
Definition hash_executor (e : executor) : list write := [WU64 (ex_hash e)].

(** atn_config.rs 86-93 *)
Inductive config_type : Type :=
| BaseATNConfig
| LexerATNConfig (lexer_action_executor : option executor) (passed_through_non_greedy_decision : bool).

(** atn_config.rs 86, derived [PartialEq] *)
Definition config_type_eqb (a b : config_type) : bool :=
  match a, b with
  | BaseATNConfig, BaseATNConfig => true
  | LexerATNConfig e p, LexerATNConfig e' p' =>
      match e, e' with
      | None, None => true
      | Some x, Some y => executor_eqb x y
      | _, _ => false
      end && Bool.eqb p p'
  | _, _ => false
  end.

(** atn_config.rs 14-27 *)
Record hconfig : Type := HConfig {
  hc_suppressed : bool;
  hc_state : Z;
  hc_alt : Z;
  hc_context : option hctx;
  hc_semantic : sem;
  hc_reaches : Z;
  hc_type : config_type
}.

(** atn_config.rs 43-67 *)
Definition hash_config (c : hconfig) : list write :=
  [WI32 (as_i32 (hc_state c)); WI32 (as_i32 (hc_alt c))] ++
  match hc_context c with None => [WI32 0] | Some x => hash_ctx x end ++
  hash_sem (hc_semantic c) ++
  match hc_type c with
  | BaseATNConfig => []
  | LexerATNConfig e p =>
      WI32 (if p then 1 else 0) :: match e with None => [WI32 0] | Some x => hash_executor x end
  end.

(** atn_config_set.rs 17-43 (the fields that are compared or hashed) *)
Record hset : Type := HSet {
  hs_configs : list hconfig;
  hs_conflicting : list Z;
  hs_dips : bool;
  hs_full : bool;
  hs_semantic : bool;
  hs_unique : Z
}.

(** atn_config_set.rs 88-92: a vector *)
Definition hash_set (s : hset) : list write :=
  WUsize (Z.of_nat (length (hs_configs s))) :: flat_map hash_config (hs_configs s).

(** dfa_state.rs 25-40; only the configurations are compared and hashed *)
Record hdstate : Type := HDState { hd_number : Z; hd_configs : hset; hd_accept : bool; hd_prediction : Z }.
(** dfa_state.rs 48-52 *)
Definition hash_dstate (d : hdstate) : list write := hash_set (hd_configs d).

(** atn_config_set.rs 45-49 *)
Inductive hkey : Type :=
| KFull (c : hconfig)
| KPartial (hash : Z) (state : Z) (alt : Z) (semantic : sem).
(** atn_config_set.rs 51-58 *)
Definition hash_key (k : hkey) : list write :=
  match k with KFull c => hash_config c | KPartial h _ _ _ => [WI32 h] end.

Section Equality.
  Variable finish : list write -> Z.
  Variable ptr_eq : hctx -> hctx -> bool.

  (** atn_config.rs 31-41 *)
  Definition hconfig_eqb (a b : hconfig) : bool :=
    (hc_state a =? hc_state b) && (hc_alt a =? hc_alt b) &&
    opt_hctx_eqb ptr_eq (hc_context a) (hc_context b) &&
    config_type_eqb (hc_type a) (hc_type b) && sem_eqb (hc_semantic a) (hc_semantic b) &&
    Bool.eqb (hc_suppressed a) (hc_suppressed b).

  (** [==] on vectors of configurations *)
  Fixpoint hconfigs_eqb (x y : list hconfig) : bool :=
    match x, y with
    | [], [] => true
    | u :: x', v :: y' => hconfig_eqb u v && hconfigs_eqb x' y'
    | _, _ => false
    end.

  (** atn_config_set.rs 75-84 *)
  Definition hset_eqb (a b : hset) : bool :=
    hconfigs_eqb (hs_configs a) (hs_configs b) && Bool.eqb (hs_full a) (hs_full b) &&
    (hs_unique a =? hs_unique b) && zlist_eqb (hs_conflicting a) (hs_conflicting b) &&
    Bool.eqb (hs_semantic a) (hs_semantic b) && Bool.eqb (hs_dips a) (hs_dips b).

  (** dfa_state.rs 42-46 *)
  Definition hdstate_eqb (a b : hdstate) : bool := hset_eqb (hd_configs a) (hd_configs b).

  (** atn_config_set.rs 45, derived [PartialEq] *)
  Definition hkey_eqb (a b : hkey) : bool :=
    match a, b with
    | KFull c, KFull c' => hconfig_eqb c c'
    | KPartial h s i m, KPartial h' s' i' m' => (h =? h') && (s =? s') && (i =? i') && sem_eqb m m'
    | _, _ => false
    end.

  (** atn_config_set.rs 118-120 *)
  Definition full_hash_key (c : hconfig) : hkey := KFull c.
  (** atn_config_set.rs 122-134 *)
  Definition local_hash_key (c : hconfig) : hkey :=
    KPartial (finish ([WUsize (hc_state c); WIsize (hc_alt c)] ++ hash_sem (hc_semantic c)))
      (hc_state c) (hc_alt c) (hc_semantic c).
End Equality.
