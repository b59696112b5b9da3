(** Model of /repo/src/atn_deserializer.rs.

    Simplifications, valid for the whole file:
    - the input [Chars] is the list of its code points;
    - [isize]/[usize] are [Z]; [x as usize] is [as_usize].  A loop bound obtained
      by casting a negative word to [usize] panics: the loop would need 2^63
      words, and [Vec::resize] to such a length panics (lines 141, 193);
    - memory exhaustion is not modelled. *)
From Coq Require Import ZArith List Bool.
From Verif Require Import Outcome IntervalSetModel DfaModel AtnModel.
Import ListNotations.
Local Open Scope Z_scope.
Local Open Scope outcome_scope.

(** [x as usize] *)
Definition as_usize (x : Z) : Z := if x <? 0 then x + 2 ^ 64 else x.
(** [x as u16 as isize] *)
Definition as_u16 (x : Z) : Z := x mod 65536.

(** atn_deserializer.rs 56-62 *)
Definition decode_word (ch : Z) : Z := (if ch >? 65535 then ch - 12288 else ch) - 2.

(** [data.next().unwrap()] *)
Definition next (data : list Z) : outcome (Z * list Z) :=
  match data with [] => Panics | w :: data => Val (w, data) end.

(** [for i in i0..i0+n], threading a state and the data *)
Fixpoint loop {S} (n : nat) (i : Z) (body : Z -> S -> list Z -> outcome (S * list Z)) (s : S) (data : list Z)
    : outcome (S * list Z) :=
  match n with
  | O => Val (s, data)
  | Datatypes.S n' => let! (s, data) := body i s data in loop n' (i + 1) body s data
  end.

(** [data.next().unwrap() as usize] used as a loop bound *)
Definition next_count (data : list Z) : outcome (nat * list Z) :=
  let! (n, data) := next data in
  if n <? 0 then Panics else Val (Z.to_nat n, data).

(** change element [i] of a vector; panics out of bounds *)
Definition upd {A} (l : list A) (i : Z) (f : A -> A) : outcome (list A) :=
  let! x := unwrap (vget l i) in unwrap (vset l i (f x)).

(** atn_deserializer.rs 41, 102-109 *)
Definition SERIALIZED_VERSION : Z := 3.

(** atn_deserializer.rs 24-39, as bytes *)
Definition BASE_SERIALIZED_UUID : list Z :=
  [0x33; 0x76; 0x1B; 0x2D; 0x78; 0xBB; 0x4A; 0x43; 0x8B; 0x0B; 0x4F; 0x5B; 0xEE; 0x8A; 0xAC; 0xF3].
Definition ADDED_PRECEDENCE_TRANSITIONS : list Z :=
  [0x1D; 0xA0; 0xC5; 0x7D; 0x6C; 0x06; 0x43; 0x8A; 0x9B; 0x27; 0x10; 0xBC; 0xB3; 0xCE; 0x0F; 0x61].
Definition ADDED_LEXER_ACTIONS : list Z :=
  [0xAA; 0xDB; 0x8D; 0x7E; 0xAE; 0xEF; 0x44; 0x15; 0xAD; 0x2B; 0x82; 0x04; 0xD6; 0xCF; 0x04; 0x2E].
Definition ADDED_UNICODE_SMP : list Z :=
  [0x59; 0x62; 0x77; 0x84; 0x3B; 0xE5; 0x41; 0x7A; 0xB9; 0xEB; 0x81; 0x31; 0xA7; 0x28; 0x60; 0x89].
Definition SUPPORTED_UUIDS : list (list Z) :=
  [BASE_SERIALIZED_UUID; ADDED_PRECEDENCE_TRANSITIONS; ADDED_LEXER_ACTIONS; ADDED_UNICODE_SMP].

Fixpoint bytes_eqb (x y : list Z) : bool :=
  match x, y with
  | [], [] => true
  | a :: x', b :: y' => (a =? b) && bytes_eqb x' y'
  | _, _ => false
  end.

(** atn_deserializer.rs 111-126; [Uuid::from_slice] fails unless there are 16 bytes *)
Definition check_uuid (data : list Z) : outcome (list Z) :=
  let taken := firstn 8 data in
  let bytes := flat_map (fun w => [as_u16 w mod 256; as_u16 w / 256]) taken in
  let bytes := rev bytes in
  if negb (Nat.eqb (length bytes) 16) then Panics
  else if existsb (bytes_eqb bytes) SUPPORTED_UUIDS then Val (skipn 8 data)
  else Panics.

(** atn_deserializer.rs 128-139 and atn.rs 58-71 *)
Definition read_atn (data : list Z) : outcome (atn * list Z) :=
  let! (ty, data) := next data in
  let! ty := match ty with 0 => Val LEXER | 1 => Val PARSER | _ => Panics end in
  let! (mx, data) := next data in
  Val (Atn [] ty [] mx [] [] [] [] [], data).

(** atn.rs, assignments to single fields *)
Definition with_states (a : atn) (l : list atn_state) : atn :=
  Atn (decision_to_state a) (grammar_type a) (lexer_actions a) (max_token_type a) (mode_to_start_state a)
    (rule_to_start_state a) (rule_to_stop_state a) (rule_to_token_type a) l.
Definition with_rules (a : atn) (start stop types : list Z) : atn :=
  Atn (decision_to_state a) (grammar_type a) (lexer_actions a) (max_token_type a) (mode_to_start_state a)
    start stop types (states a).
Definition with_modes (a : atn) (m : list Z) : atn :=
  Atn (decision_to_state a) (grammar_type a) (lexer_actions a) (max_token_type a) m
    (rule_to_start_state a) (rule_to_stop_state a) (rule_to_token_type a) (states a).
Definition with_decisions (a : atn) (d : list Z) : atn :=
  Atn d (grammar_type a) (lexer_actions a) (max_token_type a) (mode_to_start_state a)
    (rule_to_start_state a) (rule_to_stop_state a) (rule_to_token_type a) (states a).
Definition with_actions (a : atn) (l : list lexer_action) : atn :=
  Atn (decision_to_state a) (grammar_type a) l (max_token_type a) (mode_to_start_state a)
    (rule_to_start_state a) (rule_to_stop_state a) (rule_to_token_type a) (states a).

Definition with_type (s : atn_state) (t : state_type) : atn_state :=
  AState (st_rule s) (st_number s) (st_type_id s) t (st_trans s) (st_eps_only s).

(** atn_deserializer.rs 526-595, the match on the type index *)
Definition type_of_id (type_index : Z) : outcome state_type :=
  match type_index with
  | 0 => Val InvalidState
  | 1 => Val BasicState
  | 2 => Val (RuleStartState 0 false)
  | 3 => Val (DecisionState (-1) false (BlockStartState 0 BasicBlockStart))
  | 4 => Val (DecisionState (-1) false (BlockStartState 0 (PlusBlockStart 0)))
  | 5 => Val (DecisionState (-1) false (BlockStartState 0 StarBlockStart))
  | 6 => Val (DecisionState (-1) false TokenStartState)
  | 7 => Val RuleStopState
  | 8 => Val (BlockEndState 0)
  | 9 => Val StarLoopbackState
  | 10 => Val (DecisionState (-1) false (StarLoopEntry 0 false))
  | 11 => Val (DecisionState (-1) false PlusLoopBack)
  | 12 => Val (LoopEndState 0)
  | _ => Panics
  end.
(** atn_deserializer.rs 516-600, [state_factory] *)
Definition state_factory (type_index rule_index state_number : Z) : outcome atn_state :=
  let! ty := type_of_id type_index in
  Val (AState (as_usize rule_index) state_number type_index ty [] false).

(** atn_deserializer.rs 145-171, one iteration *)
Definition read_state (i : Z) (l : list atn_state) (data : list Z) : outcome (list atn_state * list Z) :=
  let! (ty, data) := next data in
  if ty =? -1 then Panics
  else
    let! (rule_index, data) := next data in
    let rule_index := if rule_index =? 65535 then -1 else rule_index in
    let! s := state_factory ty rule_index i in
    let! (s, data) :=
      match st_type s with
      | DecisionState d ng (BlockStartState _ en) =>
          let! (e, data) := next data in Val (with_type s (DecisionState d ng (BlockStartState (as_usize e) en)), data)
      | LoopEndState _ =>
          let! (e, data) := next data in Val (with_type s (LoopEndState (as_usize e)), data)
      | _ => Val (s, data)
      end in
    Val (l ++ [s], data).

(** atn_deserializer.rs 177-181 and 190-196 *)
Definition mark_non_greedy (s : atn_state) : atn_state :=
  match st_type s with DecisionState d _ k => with_type s (DecisionState d true k) | _ => s end.
Definition mark_left_recursive (s : atn_state) : atn_state :=
  match st_type s with RuleStartState st _ => with_type s (RuleStartState st true) | _ => s end.
Definition read_mark (f : atn_state -> atn_state) (_ : Z) (l : list atn_state) (data : list Z)
    : outcome (list atn_state * list Z) :=
  let! (st, data) := next data in
  let! l := upd l (as_usize st) f in Val (l, data).

(** atn_deserializer.rs 141-200, [read_states] *)
Definition read_states (a : atn) (data : list Z) : outcome (atn * list Z) :=
  let! (n, data) := next_count data in
  let! (l, data) := loop n 0 read_state (states a) data in
  let! (k, data) := next data in
  let! (l, data) := loop (Z.to_nat k) 0 (read_mark mark_non_greedy) l data in
  let! (k, data) := next data in
  let! (l, data) := loop (Z.to_nat k) 0 (read_mark mark_left_recursive) l data in
  Val (with_states a l, data).

(** atn_deserializer.rs 209-217, one iteration; the vector of start states was
    resized to its final length before, here it grows with the loop *)
Definition read_rule (ty : atn_type) (_ : Z) (r : list Z * list Z) (data : list Z)
    : outcome ((list Z * list Z) * list Z) :=
  let! (s, data) := next data in
  match ty with
  | LEXER => let! (tok, data) := next data in Val ((fst r ++ [as_usize s], snd r ++ [tok]), data)
  | PARSER => Val ((fst r ++ [as_usize s], snd r), data)
  end.

(** atn_deserializer.rs 228-240: a rule's start state learns its stop state *)
Definition set_stop (i : Z) (s : atn_state) : atn_state :=
  match st_type s with RuleStartState _ lr => with_type s (RuleStartState i lr) | _ => s end.
(** atn_deserializer.rs 223-241, [for i in 0..atn.states.len()] *)
Fixpoint link_stops (n : nat) (i : Z) (start : list Z) (stop : list Z) (l : list atn_state)
    : outcome (list Z * list atn_state) :=
  match n with
  | O => Val (stop, l)
  | S n' =>
      let! s := unwrap (vget l i) in
      match st_type s with
      | RuleStopState =>
          let! stop := unwrap (vset stop (st_rule s) i) in
          let! st := unwrap (vget start (st_rule s)) in
          let! l := upd l st (set_stop i) in
          link_stops n' (i + 1) start stop l
      | _ => link_stops n' (i + 1) start stop l
      end
  end.

(** atn_deserializer.rs 202-242, [read_rules] *)
Definition read_rules (a : atn) (data : list Z) : outcome (atn * list Z) :=
  let! (n, data) := next_count data in
  let! (r, data) := loop n 0 (read_rule (grammar_type a)) ([], rule_to_token_type a) data in
  let! (stop, l) := link_stops (length (states a)) 0 (fst r) (repeat 0 n) (states a) in
  Val (with_states (with_rules a (fst r) stop (snd r)) l, data).

(** atn_deserializer.rs 244-249, [read_modes] *)
Definition read_mode (_ : Z) (m : list Z) (data : list Z) : outcome (list Z * list Z) :=
  let! (s, data) := next data in Val (m ++ [as_usize s], data).
Definition read_modes (a : atn) (data : list Z) : outcome (atn * list Z) :=
  let! (n, data) := next data in
  let! (m, data) := loop (Z.to_nat n) 0 read_mode (mode_to_start_state a) data in
  Val (with_modes a m, data).

(** atn_deserializer.rs 74-76 and 78-80, the two ways to read a code point *)
Definition read_unicode16 (data : list Z) : outcome (Z * list Z) :=
  let! (x, data) := next data in Val (as_u16 x, data).
Definition read_unicode32 (data : list Z) : outcome (Z * list Z) :=
  let! (lo, data) := next data in
  let! (hi, data) := next data in
  Val (Z.lor (Z.land lo 65535) (Z.shiftl hi 16), data).

Section Sets.
  Variable read_unicode : list Z -> outcome (Z * list Z).
  (** atn_deserializer.rs 269-271 *)
  Definition read_interval (_ : Z) (s : interval_set) (data : list Z) : outcome (interval_set * list Z) :=
    let! (lo, data) := read_unicode data in
    let! (hi, data) := read_unicode data in
    Val (add_range s lo hi, data).
  (** atn_deserializer.rs 259-273 *)
  Definition read_set (_ : Z) (sets : list interval_set) (data : list Z) : outcome (list interval_set * list Z) :=
    let! (n, data) := next data in
    let! (eof, data) := next data in
    let set := if negb (eof =? 0) then add_one is_new (-1) else is_new in
    let! (set, data) := loop (Z.to_nat n) 0 read_interval set data in
    Val (sets ++ [set], data).
  (** atn_deserializer.rs 251-276, [read_sets] *)
  Definition read_sets (sets : list interval_set) (data : list Z) : outcome (list interval_set * list Z) :=
    let! (n, data) := next data in
    loop (Z.to_nat n) 0 read_set sets data.
End Sets.

(** atn_deserializer.rs 444-514, [edge_factory] *)
Definition edge_factory (ty target arg1 arg2 arg3 : Z) (sets : list interval_set) : outcome transition :=
  match ty with
  | 1 => Val (Epsilon target 0)
  | 2 => Val (Range target (if negb (arg3 =? 0) then TOKEN_EOF else arg1) arg2)
  | 3 => Val (RuleTr (as_usize arg1) target arg2 arg3)
  | 4 => Val (PredicateTr target (negb (arg3 =? 0)) arg1 arg2)
  | 5 => Val (Atom target (if negb (arg3 =? 0) then TOKEN_EOF else arg1))
  | 6 => Val (Action target (negb (arg3 =? 0)) arg1 arg2 0)
  | 7 => let! s := unwrap (vget sets (as_usize arg1)) in Val (SetTr target s)
  | 8 => let! s := unwrap (vget sets (as_usize arg1)) in Val (NotSet target s)
  | 9 => Val (Wildcard target)
  | 10 => Val (PrecedenceTr target arg1)
  | _ => Panics
  end.

(** atn_deserializer.rs 286-297, one iteration *)
Definition read_edge (sets : list interval_set) (_ : Z) (l : list atn_state) (data : list Z)
    : outcome (list atn_state * list Z) :=
  let! (src, data) := next data in
  let! (trg, data) := next data in
  let! (ty, data) := next data in
  let! (arg1, data) := next data in
  let! (arg2, data) := next data in
  let! (arg3, data) := next data in
  let! t := edge_factory ty (as_usize trg) arg1 arg2 arg3 sets in
  let! l := upd l (as_usize src) (fun s => add_transition s t) in
  Val (l, data).

(** atn_deserializer.rs 304-329: the return transition for one transition *)
Definition return_of (a : atn) (t : transition) : outcome (list (Z * transition)) :=
  match t with
  | RuleTr g follow _ precedence =>
      let! target := unwrap (vget (states a) g) in
      let! st := unwrap (vget (rule_to_start_state a) (st_rule target)) in
      let! start := unwrap (vget (states a) st) in
      let ret := match st_type start with
                 | RuleStartState _ true => if precedence =? 0 then st_rule target else -1
                 | _ => -1
                 end in
      let! stop := unwrap (vget (rule_to_stop_state a) (st_rule target)) in
      Val [(stop, Epsilon follow ret)]
  | _ => Val []
  end.
Fixpoint returns_of (a : atn) (ts : list transition) : outcome (list (Z * transition)) :=
  match ts with
  | [] => Val []
  | t :: ts => let! r := return_of a t in let! rs := returns_of a ts in Val (r ++ rs)
  end.
(** atn_deserializer.rs 331-333 *)
Fixpoint add_returns (l : list atn_state) (rs : list (Z * transition)) : outcome (list atn_state) :=
  match rs with
  | [] => Val l
  | (st, t) :: rs => let! l := upd l st (fun s => add_transition s t) in add_returns l rs
  end.

(** atn_deserializer.rs 278-364, [read_edges]; the last loop of the function does nothing *)
Definition read_edges (a : atn) (sets : list interval_set) (data : list Z) : outcome (atn * list Z) :=
  let! (n, data) := next data in
  let! (l, data) := loop (Z.to_nat n) 0 (read_edge sets) (states a) data in
  let a := with_states a l in
  let! rs := returns_of a (flat_map st_trans l) in
  let! l := add_returns l rs in
  Val (with_states a l, data).

(** atn_deserializer.rs 366-376, [read_decisions] *)
Definition set_decision (i : Z) (s : atn_state) : atn_state :=
  match st_type s with DecisionState _ ng k => with_type s (DecisionState i ng k) | _ => s end.
Definition read_decision (i : Z) (r : list Z * list atn_state) (data : list Z) : outcome ((list Z * list atn_state) * list Z) :=
  let! (s, data) := next data in
  let! l := upd (snd r) (as_usize s) (set_decision i) in
  Val ((fst r ++ [as_usize s], l), data).
Definition read_decisions (a : atn) (data : list Z) : outcome (atn * list Z) :=
  let! (n, data) := next data in
  let! (r, data) := loop (Z.to_nat n) 0 read_decision (decision_to_state a, states a) data in
  Val (with_states (with_decisions a (fst r)) (snd r), data).

(** atn_deserializer.rs 602-618 *)
Definition lexer_action_factory (ty data1 data2 : Z) : outcome lexer_action :=
  match ty with
  | 0 => Val (LexerChannelAction data1)
  | 1 => Val (LexerCustomAction data1 data2)
  | 2 => Val (LexerModeAction data1)
  | 3 => Val LexerMoreAction
  | 4 => Val LexerPopModeAction
  | 5 => Val (LexerPushModeAction data1)
  | 6 => Val LexerSkipAction
  | 7 => Val (LexerTypeAction data1)
  | _ => Panics
  end.
(** atn_deserializer.rs 378-398, [read_lexer_actions] *)
Definition read_lexer_action (_ : Z) (l : list lexer_action) (data : list Z) : outcome (list lexer_action * list Z) :=
  let! (ty, data) := next data in
  let! (data1, data) := next data in
  let data1 := if data1 =? 65535 then -1 else data1 in
  let! (data2, data) := next data in
  let data2 := if data2 =? 65535 then -1 else data2 in
  let! act := lexer_action_factory ty data1 data2 in
  Val (l ++ [act], data).
Definition read_lexer_actions (a : atn) (data : list Z) : outcome (atn * list Z) :=
  let! (n, data) := next_count data in
  let! (l, data) := loop n 0 read_lexer_action (lexer_actions a) data in
  Val (with_actions a l, data).

Definition last_trans (l : list transition) : option transition := nth_error (rev l) 0.

(** atn_deserializer.rs 402-424: is this state the loop entry of a left-recursive rule? *)
Definition is_precedence_entry (a : atn) (s : atn_state) : outcome bool :=
  match st_type s with
  | DecisionState _ _ (StarLoopEntry _ _) =>
      let! st := unwrap (vget (rule_to_start_state a) (st_rule s)) in
      let! start := unwrap (vget (states a) st) in
      match st_type start with
      | RuleStartState _ true =>
          let! t := unwrap (last_trans (st_trans s)) in
          let! loop_end := unwrap (vget (states a) (get_target t)) in
          match st_type loop_end with
          | LoopEndState _ =>
              if st_eps_only loop_end then
                let! t0 := unwrap (nth_error (st_trans loop_end) 0) in
                let! after := unwrap (vget (states a) (get_target t0)) in
                Val (match st_type after with RuleStopState => true | _ => false end)
              else Val false
          | _ => Val false
          end
      | _ => Val false
      end
  | _ => Val false
  end.
Fixpoint precedence_states (a : atn) (l : list atn_state) : outcome (list Z) :=
  match l with
  | [] => Val []
  | s :: l =>
      let! b := is_precedence_entry a s in
      let! rest := precedence_states a l in
      Val (if b then st_number s :: rest else rest)
  end.
(** atn_deserializer.rs 425-437 *)
Definition mark_precedence (s : atn_state) : atn_state :=
  match st_type s with
  | DecisionState d ng (StarLoopEntry lb _) => with_type s (DecisionState d ng (StarLoopEntry lb true))
  | _ => s
  end.
Fixpoint mark_all (l : list atn_state) (ns : list Z) : outcome (list atn_state) :=
  match ns with
  | [] => Val l
  | n :: ns => let! l := upd l n mark_precedence in mark_all l ns
  end.
(** atn_deserializer.rs 400-438, [mark_precedence_decisions] *)
Definition mark_precedence_decisions (a : atn) : outcome atn :=
  let! ns := precedence_states a (states a) in
  let! l := mark_all (states a) ns in
  Val (with_states a l).

(** atn_deserializer.rs 55-98, [deserialize]; [verify_atn] (440-442) does nothing *)
Definition deserialize (chars : list Z) : outcome atn :=
  let data := map decode_word chars in
  let! (v, data) := next data in
  if negb (v + 2 =? SERIALIZED_VERSION) then Panics
  else
    let! data := check_uuid data in
    let! (a, data) := read_atn data in
    let! (a, data) := read_states a data in
    let! (a, data) := read_rules a data in
    let! (a, data) := read_modes a data in
    let! (sets, data) := read_sets read_unicode16 [] data in
    let! (sets, data) := read_sets read_unicode32 sets data in
    let! (a, data) := read_edges a sets data in
    let! (a, data) := read_decisions a data in
    let! (a, data) := match grammar_type a with
                      | LEXER => read_lexer_actions a data
                      | PARSER => Val (a, data)
                      end in
    mark_precedence_decisions a.
