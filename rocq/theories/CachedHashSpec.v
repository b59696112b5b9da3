(** Vocabulary for C103: what a context says, apart from the hash stored in it,
    and which contexts, merge caches, executors and configurations can be made. *)
From Coq Require Import ZArith List Bool.
From Verif Require Import Outcome AtnModel PredContextModel SemContextModel LexerModel CachedHashModel.
Import ListNotations.
Local Open Scope Z_scope.

(** A context without the hashes. *)
Fixpoint plain (c : hctx) : pctx :=
  match c with
  | HSingleton _ r p => Singleton r (match p with None => None | Some q => Some (plain q) end)
  | HArray _ rs ps => Array rs (map (fun p => match p with None => None | Some q => Some (plain q) end) ps)
  end.

Definition plain_entry (e : (hctx * hctx) * hctx) : (pctx * pctx) * pctx :=
  let '((x, y), r) := e in ((plain x, plain y), plain r).
Definition plain_cache (k : option hcache) : option cache := option_map (map plain_entry) k.
Definition plain_result (x : outcome (hctx * option hcache)) : outcome (pctx * option cache) :=
  match x with
  | Val (r, k) => Val (plain r, plain_cache k)
  | Panics => Panics
  | NoFuel => NoFuel
  end.
Definition plain_one (x : outcome hctx) : outcome pctx :=
  match x with Val r => Val (plain r) | Panics => Panics | NoFuel => NoFuel end.

(** Contexts with one address are one context. *)
Definition one_value (ptr_eq : hctx -> hctx -> bool) : Prop :=
  forall a b, ptr_eq a b = true -> a = b.

(** The contexts a program can make: the empty one, singletons, arrays with one
    parent for each return state that are [alloc]ed, parse stacks, merges. *)
Inductive made (finish : list write -> Z) (ptr_eq : hctx -> hctx -> bool) : hctx -> Prop :=
| Made_empty : made finish ptr_eq (new_empty finish)
| Made_singleton : forall p r, (forall q, p = Some q -> made finish ptr_eq q) ->
    made finish ptr_eq (new_singleton finish p r)
| Made_array : forall ps rs, length ps = length rs -> (forall q, In (Some q) ps -> made finish ptr_eq q) ->
    made finish ptr_eq (alloc finish (new_array ps rs))
| Made_alloc : forall c, made finish ptr_eq c -> made finish ptr_eq (alloc finish c)
| Made_stack : forall follow stack c, hfrom_rule_context finish follow stack = Val c ->
    made finish ptr_eq c
| Made_merge : forall fuel wild a b k r k', made finish ptr_eq a -> made finish ptr_eq b ->
    (forall l x y m, k = Some l -> In ((x, y), m) l ->
       made finish ptr_eq x /\ made finish ptr_eq y /\ made finish ptr_eq m) ->
    hmerge finish ptr_eq fuel wild a b k = Val (r, k') -> made finish ptr_eq r.

(** Merge caches with nothing but such contexts in them. *)
Definition made_cache (finish : list write -> Z) (ptr_eq : hctx -> hctx -> bool) (k : option hcache) : Prop :=
  forall l x y m, k = Some l -> In ((x, y), m) l ->
    made finish ptr_eq x /\ made finish ptr_eq y /\ made finish ptr_eq m.

(** The executors a lexer makes: actions are appended one by one, and positions
    are filled in. *)
Inductive made_executor (actions_hash : list lexer_action -> Z) : executor -> Prop :=
| ME_first : forall a, made_executor actions_hash (new_copy_append actions_hash None a)
| ME_next : forall e a, made_executor actions_hash e ->
    made_executor actions_hash (new_copy_append actions_hash (Some e) a)
| ME_fixed : forall e offset, made_executor actions_hash e ->
    made_executor actions_hash (fix_offset_before_match e offset).

(** What a configuration's type says: parser, or lexer with its actions and flag. *)
Definition type_says (t : config_type) : option (option (list lexer_action) * bool) :=
  match t with
  | BaseATNConfig => None
  | LexerATNConfig e p => Some (option_map ex_actions e, p)
  end.

Definition made_config finish ptr_eq actions_hash (c : hconfig) : Prop :=
  (forall x, hc_context c = Some x -> made finish ptr_eq x) /\
  (forall e p, hc_type c = LexerATNConfig (Some e) p -> made_executor actions_hash e).
