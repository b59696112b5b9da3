(** Model of /repo/src/dfa.rs, /repo/src/dfa_state.rs and of the DFA cache
    operations of /repo/src/parser_atn_simulator.rs (361-373, 1416-1460) and
    /repo/src/lexer_atn_simulator.rs (264-277, 651-662).

    Simplifications: state references are [Z]; [x as usize] of a negative number
    is an index beyond every vector, so looking it up gives nothing; locks are
    not modelled; [lexer_action_executor] has an arbitrary type [E]. *)
From Coq Require Import ZArith List Bool.
From Verif Require Import Outcome PredContextModel SemContextModel ConfigSetModel.
Import ListNotations.
Local Open Scope Z_scope.
Local Open Scope outcome_scope.

(** lexer_atn_simulator.rs 36: [usize::MAX] *)
Definition ERROR_DFA_STATE_REF : Z := 2 ^ 64 - 1.

(** [Vec::get] with an [isize] cast to [usize] *)
Definition vget {A} (l : list A) (i : Z) : option A :=
  if i <? 0 then None else nth_error l (Z.to_nat i).
(** [v[i] = x]; [None]: out of bounds *)
Definition vset {A} (l : list A) (i : Z) (x : A) : option (list A) :=
  if (i <? 0) || (Z.of_nat (length l) <=? i) then None else Some (set_nth (Z.to_nat i) x l).
(** [Vec::resize] *)
Definition resize {A} (l : list A) (n : Z) (x : A) : list A :=
  firstn (Z.to_nat n) l ++ repeat x (Z.to_nat n - length l).

(** An edge slot: 0 is "no edge" (parser 369-372, lexer 272-275, dfa.rs 104-107) *)
Definition slot (o : option Z) : option Z :=
  match o with
  | Some 0 => None
  | Some x => Some x
  | None => None
  end.

(** parser_atn_simulator.rs 1416-1426 on the edge vector; [max] is [atn.max_token_type] *)
Definition p_add_edge (max : Z) (edges : list Z) (t to : Z) : outcome (list Z) :=
  if (t <? -1) || (t >? max) then Val edges
  else
    let edges := match edges with [] => resize [] (max + 2) 0 | _ => edges end in
    unwrap (vset edges (t + 1) to).
(** parser_atn_simulator.rs 361-373 *)
Definition p_get_edge (edges : list Z) (t : Z) : option Z := slot (vget edges (t + 1)).

(** lexer_atn_simulator.rs 154-156 *)
Definition MIN_DFA_EDGE : Z := 0.
Definition MAX_DFA_EDGE : Z := 127.
(** lexer_atn_simulator.rs 651-662 *)
Definition l_add_edge (edges : list Z) (t to : Z) : outcome (list Z) :=
  if (t <? MIN_DFA_EDGE) || (t >? MAX_DFA_EDGE) then Val edges
  else
    let edges := if Z.of_nat (length edges) <? MAX_DFA_EDGE - MIN_DFA_EDGE + 1
                 then resize edges (MAX_DFA_EDGE - MIN_DFA_EDGE + 1) 0 else edges in
    unwrap (vset edges (t - MIN_DFA_EDGE) to).
(** lexer_atn_simulator.rs 264-277 *)
Definition l_get_edge (edges : list Z) (t : Z) : option Z := slot (vget edges (t - MIN_DFA_EDGE)).

Section Dfa.
  Variable X : Type.
  Variable x_eqb : X -> X -> bool.
  Variable E : Type.
  (** hash of a configuration list (dfa_state.rs 50-61: a DFA state hashes as its
      configurations, atn_config_set.rs 88-92) *)
  Variable dhash : list (config X) -> Z.
  (** what the shared context cache returns (C24: an equal context) *)
  Variable share : pctx -> pctx.

  (** dfa_state.rs 26-42 *)
  Record dfa_state : Type := DState {
    d_number : Z;
    d_configs : config_set X;
    d_edges : list Z;
    d_accept : bool;
    d_prediction : Z;
    d_exec : option E;
    d_full : bool;
    d_preds : list (Z * sem)
  }.
  (** dfa_state.rs 63-76 *)
  Definition new_dfastate (n : Z) (cs : config_set X) : dfa_state :=
    DState n cs [] false 0 None false [].

  (** atn_config_set.rs 75-84 *)
  Fixpoint configs_eqb (a b : list (config X)) : bool :=
    match a, b with
    | [], [] => true
    | x :: a', y :: b' => config_eqb X x_eqb x y && configs_eqb a' b'
    | _, _ => false
    end.
  Definition set_eqb (a b : config_set X) : bool :=
    configs_eqb (configs a) (configs b) && Bool.eqb (full_ctx a) (full_ctx b) &&
    (unique_alt a =? unique_alt b) && zlist_eqb (conflicting_alts a) (conflicting_alts b) &&
    Bool.eqb (has_semantic_context a) (has_semantic_context b) &&
    Bool.eqb (dips_into_outer_context a) (dips_into_outer_context b).

  (** dfa.rs 38-57 *)
  Record dfa : Type := Dfa {
    dfa_states : list dfa_state;
    states_map : list (Z * list Z);
    s0 : option Z;
    is_precedence_dfa : bool
  }.

  (** dfa.rs 60-95; [prec]: the start state is a precedence star-loop entry *)
  Definition dfa_new (prec : bool) : dfa :=
    let null := new_dfastate ERROR_DFA_STATE_REF (new_base_config_set X true) in
    if prec then
      Dfa [null; new_dfastate 1 (new_base_config_set X true)] [] (Some 1) true
    else Dfa [null] [] None false.

  (** dfa.rs 97-111 *)
  Definition get_precedence_start_state (d : dfa) (p : Z) : outcome (option Z) :=
    if negb (is_precedence_dfa d) then Panics
    else match s0 d with
         | None => Val None
         | Some i => let! st := unwrap (vget (dfa_states d) i) in Val (slot (vget (d_edges st) p))
         end.

  Definition with_edges (st : dfa_state) (es : list Z) : dfa_state :=
    DState (d_number st) (d_configs st) es (d_accept st) (d_prediction st) (d_exec st) (d_full st) (d_preds st).
  Definition with_states (d : dfa) (l : list dfa_state) : dfa :=
    Dfa l (states_map d) (s0 d) (is_precedence_dfa d).

  (** dfa.rs 113-131 *)
  Definition set_precedence_start_state (d : dfa) (p st0 : Z) : outcome dfa :=
    if negb (is_precedence_dfa d) then Panics
    else if p <? 0 then Val d
    else match s0 d with
         | None => Val d
         | Some i =>
             let! st := unwrap (vget (dfa_states d) i) in
             let edges := if Z.of_nat (length (d_edges st)) <=? p then resize (d_edges st) (p + 1) 0 else d_edges st in
             let! edges := unwrap (vset edges p st0) in
             let! l := unwrap (vset (dfa_states d) i (with_edges st edges)) in
             Val (with_states d l)
         end.
  (** dfa.rs 137-139 *)
  Definition set_precedence_dfa (d : dfa) (v : bool) : dfa :=
    Dfa (dfa_states d) (states_map d) (s0 d) v.

  (** atn_config_set.rs 191-204 *)
  Fixpoint share_all (cs : list (config X)) : outcome (list (config X)) :=
    match cs with
    | [] => Val []
    | c :: cs' =>
        let! x := unwrap (c_ctx c) in
        let! rest := share_all cs' in
        Val (Config (c_state c) (c_alt c) (Some (share x)) (c_sem c) (c_reach c) (c_pfs c) (c_type c) :: rest)
    end.
  Definition optimize_configs (s : config_set X) : outcome (config_set X) :=
    let! cs := share_all (configs s) in
    Val (ConfigSet X (config_lookup s) cs (conflicting_alts s) (dips_into_outer_context s)
           (full_ctx s) (has_semantic_context s) (read_only s) (unique_alt s) (set_hasher s)).

  (** [HashMap<u64, Vec<DFAStateRef>>] *)
  Fixpoint map_get (m : list (Z * list Z)) (k : Z) : option (list Z) :=
    match m with
    | [] => None
    | (k', v) :: m' => if k' =? k then Some v else map_get m' k
    end.
  Fixpoint map_push (m : list (Z * list Z)) (k x : Z) : list (Z * list Z) :=
    match m with
    | [] => [(k, [x])]
    | (k', v) :: m' => if k' =? k then (k', v ++ [x]) :: m' else (k', v) :: map_push m' k x
    end.

  (** [iter().find(..)] with panicking indexing *)
  Fixpoint find_state (states : list dfa_state) (bucket : list Z) (cs : config_set X) : outcome (option Z) :=
    match bucket with
    | [] => Val None
    | i :: b => let! st := unwrap (vget states i) in
                if set_eqb (d_configs st) cs then Val (Some i) else find_state states b cs
    end.

  (** parser_atn_simulator.rs 1428-1460 *)
  Definition p_add_dfastate (d : dfa) (st : dfa_state) : outcome (dfa * Z) :=
    if d_number st =? ERROR_DFA_STATE_REF then Val (d, ERROR_DFA_STATE_REF)
    else
      let n := Z.of_nat (length (dfa_states d)) in
      let key := dhash (configs (d_configs st)) in
      let! found := match map_get (states_map d) key with
                    | Some b => find_state (dfa_states d) b (d_configs st)
                    | None => Val None
                    end in
      match found with
      | Some i => Val (d, i)
      | None =>
          let! cs := if read_only (d_configs st) then Val (d_configs st)
                     else let! cs := optimize_configs (d_configs st) in Val (set_read_only X cs true) in
          let st' := DState n cs (d_edges st) (d_accept st) (d_prediction st) (d_exec st) (d_full st) (d_preds st) in
          Val (Dfa (dfa_states d ++ [st']) (map_push (states_map d) key n) (s0 d) (is_precedence_dfa d), n)
      end.

  (** [add_dfaedge] on a state of the DFA (parser_atn_simulator.rs 1416-1426) *)
  Definition p_dfa_add_edge (max : Z) (d : dfa) (from t to : Z) : outcome dfa :=
    let! st := unwrap (vget (dfa_states d) from) in
    let! es := p_add_edge max (d_edges st) t to in
    let! l := unwrap (vset (dfa_states d) from (with_edges st es)) in
    Val (with_states d l).
End Dfa.
Arguments d_number {X E} _.
Arguments d_configs {X E} _.
Arguments d_edges {X E} _.
Arguments d_accept {X E} _.
Arguments d_prediction {X E} _.
Arguments d_exec {X E} _.
Arguments d_full {X E} _.
Arguments d_preds {X E} _.
Arguments dfa_states {X E} _.
Arguments states_map {X E} _.
Arguments s0 {X E} _.
Arguments is_precedence_dfa {X E} _.
