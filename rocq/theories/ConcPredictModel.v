(** Model of [adaptive_predict] as a job of a thread that shares the DFAs of its parser
    with others (parser_atn_simulator.rs 90-123, 160-237, 375-434): the pieces of
    PredictModel, with each access to the DFA going to the shared one.

    Simplifications, besides those of PredictModel and ConcModel: listeners are told
    about conflicts (294, 337, 517, 527) at the end of the prediction instead of in the
    middle; the guard is held all along, and no access to the DFA lies in between.  When
    a change of the DFA panics half-way, the model leaves the DFA as it was. *)
From Coq Require Import ZArith List Bool.
From Verif Require Import Outcome TokenStreamModel IntervalSetModel PredContextModel SemContextModel ConfigSetModel DfaModel AtnModel Ll1Model ParserModel PredictModel ConcModel.
Import ListNotations.
Local Open Scope Z_scope.
Local Open Scope outcome_scope.

Definition answer : Type := outcome (sim uts * presult).
Definition pjob : Type := job pdfa answer unit.
Definition pthread : Type := thread pdfa answer unit.

(** One call of [adaptive_predict]: the token stream of the parser and how to read it,
    what its predicates are, its mode, precedence and contexts, what its error
    listeners do; and what hashing does in its thread. *)
Record request : Type := Request {
  q_stream : seek_ops uts;
  q_input : uts;
  q_ctx : Type;
  q_outer : q_ctx;
  q_sempred : uts -> option q_ctx -> Z -> Z -> bool;
  q_mode : pmode;
  q_precedence : Z;
  q_stack : list Z;
  q_clock : nat;
  q_listen : report -> pthread;
  q_order : list nat -> list sem -> list sem;
  q_alt_order : list (list Z) -> list (list Z);
  q_hash : pctx -> Z;
  q_dhash : list pconfig -> Z;
  q_share : pctx -> pctx;
  q_fuel : nat
}.

Section Job.
  Variable a : atn.
  Variable decision : Z.
  Variable start : Z.
  Variable q : request.
  Let start_index := s_index (k_base (q_stream q)) (q_input q).

  (** a panic unwinds through the prediction; the guard is dropped (parking_lot locks are
      not poisoned) *)
  Definition lift {A} (o : outcome A) (k : A -> pjob) : pjob :=
    match o with Val x => k x | Panics => Answer Panics | NoFuel => Answer NoFuel end.
  (** a change of the DFA, under the write guard, with what it gives besides *)
  Definition change {A} (w : pdfa -> outcome (sim uts * A)) (k : sim uts * A -> pjob) : pjob :=
    Grow (fun d => match w d with Val (m, _) => m_dfa m | _ => d end) (fun d => lift (w d) k).

  (** what listeners are told: by [report_attempting_full_context] and the like *)
  Fixpoint tell (l : list report) (j : pjob) : pjob :=
    match l with [] => j | x :: l => Callback (q_listen q x) (fun _ => tell l j) end.
  (** 227-236: the end of [adaptive_predict] *)
  Definition leave (mk : Z) (o : outcome (sim uts * presult)) : outcome (sim uts * presult) :=
    let! (m, r) := o in
    match r with
    | NoViableAlt _ _ => Val (m, r)
    | Predicted alt =>
        let! m := sim_seek (q_stream q) m start_index in
        let! input := k_release (q_stream q) (m_input m) mk in
        Val (with_sim_input m input, Predicted alt)
    end.
  Definition finish (mk : Z) (o : outcome (sim uts * presult)) : pjob :=
    lift (leave mk o) (fun x => tell (m_reports (fst x)) (Answer (Val x))).

  (** 385-388: under the second read guard *)
  Definition target_read (previous t : Z) (m : sim uts) : outcome (sim uts * option pset) :=
    let! prev := dfa_get m previous in
    compute_reach_set (q_stream q) a (q_ctx q) (q_sempred q) (q_order q) (q_hash q) (q_fuel q) start_index (q_precedence q) (q_outer q) start (configs (d_configs prev)) t false m.
  (** 389-433: under the write guard *)
  Definition target_write (previous t : Z) (reach : option pset) (m : sim uts) : outcome (sim uts * Z) :=
    match reach with
    | None => let! m := add_edge a m previous t ERROR_DFA_STATE_REF in Val (m, ERROR_DFA_STATE_REF)
    | Some reach =>
        let! st := decide_state a (q_alt_order q) (q_hash q) (q_mode q) reach in
        let! (m, st) :=
          if d_accept st && has_semantic_context (d_configs st) then
            let! ds := unwrap (vget (decision_to_state a) decision) in
            let! s := get_state a ds in
            let! (m, st) := predicate_dfa_state (q_order q) st (length (st_trans s)) m in
            Val (m, if has_no (d_preds st) then st
                    else DState unit unit (d_number st) (d_configs st) (d_edges st) (d_accept st) INVALID_ALT (d_exec st) (d_full st) (d_preds st))
          else Val (m, st) in
        let! (m, r) := add_state (q_dhash q) (q_share q) m st in
        let! m := add_edge a m previous t r in
        Val (m, r)
    end.
  (** 375-434 *)
  Definition target_job (previous t : Z) (m : sim uts) (k : sim uts * Z -> pjob) : pjob :=
    Shared (fun d => lift (target_read previous t (with_dfa m d)) (fun x =>
      change (fun d => target_write previous t (snd x) (with_dfa (fst x) d)) k)).

  (** 239-359: one round after the other; the DFA is looked at (252, 256-257) after
      [compute_target_state] has put the guard back *)
  Definition round_job (rec : Z -> Z -> sim uts -> pjob) (mk previous token : Z) (x : sim uts * Z) : pjob :=
    Peek (fun d =>
      let m := with_dfa (fst x) d in
      if snd x =? ERROR_DFA_STATE_REF
      then finish mk (on_error (q_stream q) a (q_ctx q) (q_sempred q) (q_hash q) start_index (q_precedence q) (q_outer q) previous m)
      else lift (dfa_get m (snd x)) (fun st =>
        if d_full st && negb (is_sll (q_mode q))
        then finish mk (on_conflict (q_stream q) a (q_ctx q) (q_sempred q) (q_order q) (q_alt_order q) (q_hash q) (q_fuel q) (q_mode q) start_index (q_precedence q) (q_outer q) (q_stack q) start st m)
        else if d_accept st then finish mk (on_accept (q_stream q) (q_ctx q) (q_sempred q) start_index (q_precedence q) (q_outer q) st m)
        else lift (if negb (token =? TOKEN_EOF) then let! m := sim_consume (q_stream q) m in sim_la (q_stream q) m 1 else Val (m, token))
               (fun y => rec (snd x) (snd y) (fst y)))).
  Fixpoint exec_job (mk : Z) (n : nat) (previous token : Z) (m : sim uts) : pjob :=
    match n with
    | O => Answer NoFuel
    | Datatypes.S n =>
        Peek (fun d =>
          let m := with_dfa m d in
          lift (get_existing_target_state m previous token) (fun known =>
            match known with
            | Some t => round_job (exec_job mk n) mk previous token (m, t)
            | None => target_job previous token m (round_job (exec_job mk n) mk previous token)
            end))
    end.

  (** 202-224: under the write guard *)
  Definition start_write (s0_closure : pset) (m : sim uts) : outcome (sim uts * Z) :=
    if is_precedence_dfa (m_dfa m) then
      let! first := unwrap (s0 (m_dfa m)) in
      let! (m, filtered) := apply_precedence_filter (q_order q) (q_hash q) (q_precedence q) s0_closure m in
      let! d := set_configs_of (m_dfa m) first s0_closure in
      let! (m, r) := add_state (q_dhash q) (q_share q) (with_dfa m d) (new_dfastate unit unit 0 filtered) in
      let! d := set_precedence_start_state unit unit (m_dfa m) (q_precedence q) r in
      Val (with_dfa m d, r)
    else
      let! (m, r) := add_state (q_dhash q) (q_share q) m (new_dfastate unit unit 0 s0_closure) in
      Val (with_dfa m (set_dfa_s0 (m_dfa m) r), r).
  (** 160-237, from the point where the guard is taken *)
  Definition predict_job : pjob :=
    let '(input, mk) := k_mark (q_stream q) (q_input q) in
    let run := fun x : sim uts * Z => lift (sim_la (q_stream q) (fst x) 1) (fun y => exec_job mk (q_fuel q) (snd x) (snd y) (fst y)) in
    Peek (fun d =>
      let m := Sim input d [] (q_clock q) [] [] in
      lift (if is_precedence_dfa d then get_precedence_start_state unit unit d (q_precedence q) else Val (s0 d)) (fun known =>
        match known with
        | Some r => run (m, r)
        | None =>
            lift (compute_start_state (q_stream q) a (q_ctx q) (q_sempred q) (q_order q) (q_hash q) (q_fuel q) start_index (q_precedence q) (q_outer q) start start EMPTY false m)
              (fun y => change (fun d => start_write (snd y) (with_dfa (fst y) d)) run)
        end)).
End Job.
