(** Model of src/dfa_serializer.rs, src/dfa.rs 141-170 ([DFA::to_string], [DFA::to_lexer_string]) and
    src/parser.rs 664-681 ([dump_dfa]). *)
From Coq Require Import ZArith List Bool.
From Verif Require Import Outcome Text ConfigSetModel DfaModel.
Import ListNotations.
Local Open Scope Z_scope.
Local Open Scope outcome_scope.

Section Dump.
  Context {X E : Type}.

  (** dfa_serializer.rs 42-60; an accept state with predicates is [unimplemented!()] *)
  Definition get_state_string (st : dfa_state X E) : outcome text :=
    let base := (if d_accept st then lit ":" else []) ++ lit "s" ++ isize_to_string (d_number st - 1) ++
                (if d_full st then lit "^" else []) in
    if d_accept st then
      match d_preds st with
      | [] => Val (base ++ lit "=>" ++ isize_to_string (d_prediction st))
      | _ => Panics
      end
    else Val base.

  Section Label.
    (** [get_edge_label], applied to the index of the edge *)
    Variable label : Z -> outcome text.

    (** dfa_serializer.rs 16-27: one state; [i] is the index of the first edge of [edges] *)
    Fixpoint edges_string (states : list (dfa_state X E)) (source : dfa_state X E) (i : Z) (edges : list Z) : outcome text :=
      match edges with
      | [] => Val []
      | edge :: edges =>
          let! line :=
            if (edge =? 0) || (edge =? ERROR_DFA_STATE_REF) then Val []
            else
              let! target := unwrap (vget states edge) in
              let! s := get_state_string source in
              let! l := label i in
              let! t := get_state_string target in
              Val (s ++ lit "-" ++ l ++ lit "->" ++ t ++ [10]) in
          let! rest := edges_string states source (i + 1) edges in
          Val (line ++ rest)
      end.
    (** dfa_serializer.rs 13-30 *)
    Fixpoint states_string (states todo : list (dfa_state X E)) : outcome text :=
      match todo with
      | [] => Val []
      | source :: todo =>
          let! s := edges_string states source 0 (d_edges source) in
          let! rest := states_string states todo in
          Val (s ++ rest)
      end.
    Definition serialize (d : dfa X E) : outcome text :=
      match s0 d with
      | None => Val []
      | Some _ => states_string (dfa_states d) (dfa_states d)
      end.
  End Label.

  (** dfa.rs 141-154; [name] is the display name of a token type in the vocabulary *)
  Definition to_string (name : Z -> text) (d : dfa X E) : outcome text :=
    serialize (fun x => Val (name (x - 1))) d.
  (** dfa.rs 156-167 *)
  Definition to_lexer_string (d : dfa X E) : outcome text :=
    serialize (fun x => if ((0 <=? x) && (x <? 55296)) || ((57344 <=? x) && (x <? 1114112)) then Val (lit "'" ++ [x] ++ lit "'") else Panics) d.

  (** parser.rs 665-681; the DFAs with their decision numbers *)
  Fixpoint dump_loop (name : Z -> text) (seen_one : bool) (dfas : list (Z * dfa X E)) : outcome text :=
    match dfas with
    | [] => Val []
    | (decision, d) :: dfas =>
        if Z.of_nat (length (dfa_states d)) >? 1 + (if is_precedence_dfa d then 1 else 0) then
          let! s := to_string name d in
          let! rest := dump_loop name true dfas in
          Val ((if seen_one then [10] else []) ++ lit "Decision " ++ isize_to_string decision ++ lit ":" ++ [10] ++ s ++ rest)
        else dump_loop name seen_one dfas
    end.
  Definition dump_dfa (name : Z -> text) (dfas : list (Z * dfa X E)) : outcome text := dump_loop name false dfas.
End Dump.
