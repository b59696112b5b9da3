(** Independent vocabulary for C21-C25: which call stacks a context represents
    and when it is well formed. *)
From Coq Require Import ZArith List Bool Sorted.
From Verif Require Import Outcome PredContextModel.
Import ListNotations.
Local Open Scope Z_scope.

(** The (return state, parent) pairs of a context. *)
Definition entries (c : pctx) : list (Z * option pctx) :=
  match c with
  | Singleton r p => [(r, p)]
  | Array rs ps => combine rs ps
  end.

(** [stands wild c s]: the context [c] represents the call stack [s] (return
    states, innermost first).  An empty marker ends a stack; with
    [wild = true] it stands for every continuation. *)
Inductive stands (wild : bool) : pctx -> list Z -> Prop :=
| Bottom : forall c s, In (EMPTY_RETURN_STATE, None) (entries c) ->
    (s = [] \/ wild = true) -> stands wild c s
| Frame : forall c r q s, In (r, Some q) (entries c) -> stands wild q s ->
    stands wild c (r :: s).

(** Return states strictly ascending (so the empty marker, the largest value, is
    last), one parent per return state, at least two of them in an array. *)
Definition shape (c : pctx) : Prop :=
  match c with
  | Singleton _ _ => True
  | Array rs ps => StronglySorted Z.lt rs /\ length rs = length ps /\ (2 <= length rs)%nat
  end.

Inductive wf : pctx -> Prop :=
| Wf : forall c, shape c ->
    (forall r, In (r, None) (entries c) -> r = EMPTY_RETURN_STATE) ->
    (forall r q, In (r, Some q) (entries c) -> r < EMPTY_RETURN_STATE) ->
    (forall r q, In (r, Some q) (entries c) -> wf q) ->
    wf c.

(** Merge caches that arise when all merges of a prediction use the same
    root mode: any sequence of (successful) merges of well-formed contexts,
    starting from no cache or from an empty cache. *)
Inductive reach_cache (hash : pctx -> Z) (wild : bool) : option cache -> Prop :=
| RC_none : reach_cache hash wild None
| RC_empty : reach_cache hash wild (Some [])
| RC_step : forall k fuel a b r k', reach_cache hash wild k -> wf a -> wf b ->
    merge hash fuel wild a b k = Val (r, k') -> reach_cache hash wild k'.

(** Follow states of the contexts of a parse stack up to the first context that
    nobody invoked (or the last one, which has no parent). *)
Fixpoint return_chain (stack : list Z) (follow : Z -> Z) : list Z :=
  match stack with
  | [] => []
  | [_] => []
  | s :: rest => if s =? -1 then [] else follow s :: return_chain rest follow
  end.
