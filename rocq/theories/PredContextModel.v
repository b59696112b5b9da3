(** Model of /repo/src/prediction_context.rs (graph-structured call stacks).

    Simplifications, valid for the whole file:
    - [isize] is [Z];
    - an [Arc<PredictionContext>] is the value it points to.  [Arc::ptr_eq] is
      only used in the code as a shortcut in front of value equality (lines 67,
      300) or to choose between two equal values (lines 372-378), so it has no
      counterpart here; lines 337-343 (return the argument when the result
      equals it) likewise choose between equal values;
    - the field [cached_hash] is not stored: every context that reaches these
      functions has been passed through [calc_hash] (lines 171, 180, 289), so it
      is a function of the value.  That function (murmur3, an external crate) is
      the Section variable [hash]; it matters only for the assertion of line 349;
    - [Vec] capacities (lines 447-448, 502-508) have no counterpart.  Note that
      line 504 builds a singleton and drops it. *)
From Coq Require Import ZArith List Bool.
From Verif Require Import Outcome.
Import ListNotations.
Local Open Scope Z_scope.
Local Open Scope outcome_scope.

(** prediction_context.rs 21 *)
Definition EMPTY_RETURN_STATE : Z := 2147483647.

(** prediction_context.rs 28-31, 44-48, 74-78 *)
Inductive pctx : Type :=
| Singleton (return_state : Z) (parent_ctx : option pctx)
| Array (return_states : list Z) (parents : list (option pctx)).

(** prediction_context.rs 174-182 and 145-148 *)
Definition EMPTY : pctx := Singleton EMPTY_RETURN_STATE None.

Fixpoint zlist_eqb (x y : list Z) : bool :=
  match x, y with
  | [], [] => true
  | u :: x', v :: y' => (u =? v) && zlist_eqb x' y'
  | _, _ => false
  end.

(** prediction_context.rs 33-41, 50-57, 59-71, 80-87: equality.  The parents of
    two arrays are compared with [zip], i.e. up to the shorter list. *)
Fixpoint pctx_eqb (a b : pctx) {struct a} : bool :=
  let opt_eq (x : option pctx) (y : option pctx) : bool :=
    match x, y with
    | Some s, Some o => pctx_eqb s o
    | None, None => true
    | _, _ => false
    end in
  let fix zip_all (x y : list (option pctx)) {struct x} : bool :=
    match x, y with
    | u :: x', v :: y' => opt_eq u v && zip_all x' y'
    | _, _ => true
    end in
  match a, b with
  | Array rs ps, Array rs' ps' => zlist_eqb rs rs' && zip_all ps ps'
  | Singleton r p, Singleton r' p' => (r =? r') && opt_eq p p'
  | _, _ => false
  end.

Definition opt_pctx_eqb (x y : option pctx) : bool :=
  match x, y with
  | Some s, Some o => pctx_eqb s o
  | None, None => true
  | _, _ => false
  end.

(** prediction_context.rs 246-253 *)
Definition pc_length (c : pctx) : nat :=
  match c with Singleton _ _ => 1 | Array rs _ => length rs end.

(** prediction_context.rs 235-244; indexing panics out of range *)
Definition get_return_state (c : pctx) (i : nat) : outcome Z :=
  match c with Singleton r _ => Val r | Array rs _ => unwrap (nth_error rs i) end.

(** prediction_context.rs 225-233 *)
Definition get_parent (c : pctx) (i : nat) : outcome (option pctx) :=
  match c with Singleton _ p => Val p | Array _ ps => unwrap (nth_error ps i) end.

(** prediction_context.rs 89-94 *)
Definition singleton_is_empty (r : Z) (p : option pctx) : bool :=
  (r =? EMPTY_RETURN_STATE) && match p with None => true | Some _ => false end.

(** prediction_context.rs 256-261 *)
Definition pc_is_empty (c : pctx) : outcome bool :=
  match c with
  | Singleton r p => Val (singleton_is_empty r p)
  | Array _ _ => let! r := get_return_state c 0 in Val (r =? EMPTY_RETURN_STATE)
  end.

(** prediction_context.rs 264-266 ([length() - 1] on an empty array underflows
    and panics in debug builds; in release builds the index is out of range) *)
Definition has_empty_path (c : pctx) : outcome bool :=
  match pc_length c with
  | O => Panics
  | S n => let! r := get_return_state c n in Val (r =? EMPTY_RETURN_STATE)
  end.

(** prediction_context.rs 276-285 *)
Definition to_array (c : pctx) : list Z * list (option pctx) :=
  match c with
  | Singleton r p => ([r], [p])
  | Array rs ps => (rs, ps)
  end.

(** parser_atn_simulator.rs 125-129, [MergeCache]: a hash map from pairs of
    contexts; here an association list, newest first *)
Definition cache : Type := list ((pctx * pctx) * pctx).

Fixpoint cache_get (k : cache) (a b : pctx) : option pctx :=
  match k with
  | [] => None
  | ((x, y), r) :: k' => if pctx_eqb x a && pctx_eqb y b then Some r else cache_get k' a b
  end.

(** prediction_context.rs 545-558, [combine_common_parents]: the first of equal
    parents replaces the later ones *)
Fixpoint uniq_get (u : list (option pctx)) (p : option pctx) : option (option pctx) :=
  match u with
  | [] => None
  | x :: u' => if opt_pctx_eqb x p then Some x else uniq_get u' p
  end.
Definition uniq_parents (ps : list (option pctx)) : list (option pctx) :=
  fold_left (fun u p => match uniq_get u p with Some _ => u | None => u ++ [p] end) ps [].
Fixpoint map_unwrap {A B} (f : A -> outcome B) (l : list A) : outcome (list B) :=
  match l with
  | [] => Val []
  | x :: l' => let! y := f x in let! ys := map_unwrap f l' in Val (y :: ys)
  end.
Definition combine_common_parents (ps : list (option pctx)) : outcome (list (option pctx)) :=
  map_unwrap (fun p => unwrap (uniq_get (uniq_parents ps) p)) ps.

(** Depth of a context: length of its longest stack, plus one.  Not in the code;
    it is the bound on the recursion depth of [merge] below. *)
Fixpoint height (c : pctx) : nat :=
  match c with
  | Singleton _ p => S (match p with None => 0 | Some q => height q end)
  | Array _ ps => S (list_max (map (fun p => match p with None => 0%nat | Some q => height q end) ps))
  end.

Section Merge.
  (** prediction_context.rs 269-274, [hash_code] *)
  Variable hash : pctx -> Z.

  (** prediction_context.rs 401-435, [merge_root] *)
  Definition merge_root (ra : Z) (pa : option pctx) (rb : Z) (pb : option pctx)
      (root_is_wildcard : bool) : option pctx :=
    if root_is_wildcard then
      if singleton_is_empty ra pa || singleton_is_empty rb pb then Some EMPTY else None
    else if singleton_is_empty ra pa && singleton_is_empty rb pb then Some EMPTY
    else if singleton_is_empty ra pa then Some (Array [rb; EMPTY_RETURN_STATE] [pb; None])
    else if singleton_is_empty rb pb then Some (Array [ra; EMPTY_RETURN_STATE] [pa; None])
    else None.

  (** the recursive call of [merge] on parents *)
  Definition rec_merge : Type := pctx -> pctx -> option cache -> outcome (pctx * option cache).

  (** prediction_context.rs 358-399, [merge_singletons] *)
  Definition merge_singletons (rec : rec_merge) (ra : Z) (pa : option pctx)
      (rb : Z) (pb : option pctx) (wild : bool) (k : option cache)
      : outcome (pctx * option cache) :=
    match merge_root ra pa rb pb wild with
    | Some r => Val (r, k)
    | None =>
        if ra =? rb then
          let! qa := unwrap pa in
          let! qb := unwrap pb in
          let! (parent, k) := rec qa qb k in
          Val (Singleton ra (Some parent), k)
        else
          let '(p0, p1) := if opt_pctx_eqb pa pb then (pa, pa) else (pa, pb) in
          if ra <=? rb then Val (Array [ra; rb] [p0; p1], k)
          else Val (Array [rb; ra] [p1; p0], k)
    end.

  (** prediction_context.rs 489-500: append the rest of one operand *)
  Fixpoint append_rest (rs : list Z) (ps : list (option pctx)) : outcome (list Z * list (option pctx)) :=
    match rs, ps with
    | [], _ => Val ([], [])
    | r :: rs', p :: ps' => let! (x, y) := append_rest rs' ps' in Val (r :: x, p :: y)
    | _ :: _, [] => Panics
    end.

  (** prediction_context.rs 453-500: the merge loop and the two tails; fuel
      bounds the number of iterations *)
  Fixpoint merge_arrays_loop (fuel : nat) (rec : rec_merge)
      (ars : list Z) (aps : list (option pctx)) (brs : list Z) (bps : list (option pctx))
      (k : option cache) {struct fuel}
      : outcome (list Z * list (option pctx) * option cache) :=
    match fuel with
    | O => NoFuel
    | S fuel' =>
        match aps, bps with
        | ap :: aps', bp :: bps' =>
            match ars, brs with
            | ra :: ars', rb :: brs' =>
                if ra =? rb then
                  let both := (ra =? EMPTY_RETURN_STATE) &&
                              match ap, bp with None, None => true | _, _ => false end in
                  let ax_ax := match ap, bp with Some x, Some y => pctx_eqb x y | _, _ => false end in
                  if both || ax_ax then
                    let! (rs, ps, k) := merge_arrays_loop fuel' rec ars' aps' brs' bps' k in
                    Val (ra :: rs, ap :: ps, k)
                  else
                    let! qa := unwrap ap in
                    let! qb := unwrap bp in
                    let! (m, k) := rec qa qb k in
                    let! (rs, ps, k) := merge_arrays_loop fuel' rec ars' aps' brs' bps' k in
                    Val (ra :: rs, Some m :: ps, k)
                else if ra <? rb then
                  let! (rs, ps, k) := merge_arrays_loop fuel' rec ars' aps' brs bps k in
                  Val (ra :: rs, ap :: ps, k)
                else
                  let! (rs, ps, k) := merge_arrays_loop fuel' rec ars aps brs' bps' k in
                  Val (rb :: rs, bp :: ps, k)
            | _, _ => Panics
            end
        | _, _ =>
            let! (x1, y1) := append_rest ars aps in
            let! (x2, y2) := append_rest brs bps in
            Val (x1 ++ x2, y1 ++ y2, k)
        end
    end.

  (** prediction_context.rs 437-518, [merge_arrays] *)
  Definition merge_arrays (rec : rec_merge) (a b : list Z * list (option pctx)) (k : option cache)
      : outcome (pctx * option cache) :=
    let '(ars, aps) := a in
    let '(brs, bps) := b in
    let! (rs, ps, k) := merge_arrays_loop (S (length aps + length bps)) rec ars aps brs bps k in
    let! ps := combine_common_parents ps in
    Val (Array rs ps, k).

  (** prediction_context.rs 293-356, [merge]; fuel bounds the recursion depth *)
  Fixpoint merge (fuel : nat) (wild : bool) (a b : pctx) (k : option cache) {struct fuel}
      : outcome (pctx * option cache) :=
    match fuel with
    | O => NoFuel
    | S fuel' =>
        if pctx_eqb a b then Val (a, k)
        else
          let old := match k with
                     | None => None
                     | Some c => match cache_get c a b with Some r => Some r | None => cache_get c b a end
                     end in
          match old with
          | Some r => Val (r, k)
          | None =>
              let finish (x : outcome (pctx * option cache)) :=
                let! (r, k) := x in
                if hash r =? 0 then Panics
                else Val (r, match k with None => None | Some c => Some (((a, b), r) :: c) end) in
              match a, b with
              | Singleton ra pa, Singleton rb pb =>
                  finish (merge_singletons (merge fuel' wild) ra pa rb pb wild k)
              | _, _ =>
                  if wild then
                    let! ea := pc_is_empty a in
                    if ea then Val (EMPTY, k)
                    else
                      let! eb := pc_is_empty b in
                      if eb then Val (EMPTY, k)
                      else finish (merge_arrays (merge fuel' wild) (to_array a) (to_array b) k)
                  else finish (merge_arrays (merge fuel' wild) (to_array a) (to_array b) k)
              end
          end
    end.
End Merge.

(** ** prediction_context.rs 520-543, [from_rule_context]

    A parse stack is the list of its rule contexts' invoking states, the current
    context first; the last one has no parent.  [follow s] models lines 535-540:
    the follow state of the first transition of ATN state [s]; [None] when the
    state does not exist or has no transition (panic).  The unchecked cast to
    [RuleTransition] (line 540) is not modelled: [follow] is given for states
    whose first transition is a rule transition. *)
Section FromRule.
  Variable follow : Z -> option Z.

  Fixpoint from_rule_context (stack : list Z) : outcome pctx :=
    match stack with
    | [] => Val EMPTY
    | invoking :: parents =>
        match parents with
        | [] => Val EMPTY
        | _ :: _ =>
            (* rule_context.rs: is_empty() is invoking_state == -1 *)
            if invoking =? -1 then Val EMPTY
            else
              let! parent := from_rule_context parents in
              let! f := unwrap (follow invoking) in
              Val (Singleton f (Some parent))
        end
    end.
End FromRule.

(** ** prediction_context.rs 583-652, [PredictionContextCache::get_shared_context]

    Here identity matters: contexts are addresses, [deref] gives the (immutable)
    value at an address.  The shared cache and the [visited] map hold addresses;
    the former is searched by value equality, the latter by address.  The loop of
    lines 610-621 runs over the indices of the still empty vector [parents], so
    it has no iterations and [changed] is false at line 622. *)
Section Shared.
  Variable deref : Z -> pctx.

  Record shared := { sh_cache : list (Z * Z); sh_visited : list (Z * Z) }.

  Fixpoint find_value (l : list (Z * Z)) (c : pctx) : option Z :=
    match l with
    | [] => None
    | (key, v) :: l' => if pctx_eqb (deref key) c then Some v else find_value l' c
    end.
  Fixpoint find_addr (l : list (Z * Z)) (a : Z) : option Z :=
    match l with
    | [] => None
    | (key, v) :: l' => if key =? a then Some v else find_addr l' a
    end.

  Definition get_shared_context (st : shared) (a : Z) : outcome (shared * Z) :=
    let! e := pc_is_empty (deref a) in
    if e then Val (st, a)
    else match find_addr (sh_visited st) a with
         | Some old => Val (st, old)
         | None =>
             match find_value (sh_cache st) (deref a) with
             | Some old => Val (st, old)
             | None => Val ({| sh_cache := (a, a) :: sh_cache st;
                               sh_visited := (a, a) :: sh_visited st |}, a)
             end
         end.

  (** A history of calls; [true] starts with a fresh [visited] map
      (atn_config_set.rs 196-203 makes one per configuration). *)
  Fixpoint run_shared (st : shared) (calls : list (bool * Z)) : outcome (shared * list Z) :=
    match calls with
    | [] => Val (st, [])
    | (fresh, a) :: calls' =>
        let st := if fresh then {| sh_cache := sh_cache st; sh_visited := [] |} else st in
        let! (st, r) := get_shared_context st a in
        let! (st, rs) := run_shared st calls' in
        Val (st, r :: rs)
    end.
End Shared.
