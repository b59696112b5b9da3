(** Specification vocabulary for C43 and C44: the serialized form of an ATN
    description, as the ANTLR tool writes it, and the ATN a description stands
    for. *)
From Coq Require Import ZArith List Bool Lia.
From Verif Require Import IntervalSetModel IntervalSetSpec AtnModel AtnSpec.
Import ListNotations.
Local Open Scope Z_scope.

(** ** Words.  A 16-bit value is written as the code unit [value + 2] (modulo
    2^16); code units that are surrogates cannot occur in a Rust string and are
    moved up by 0x3000. *)
Definition encode_word (v : Z) : Z :=
  let c := (v + 2) mod 65536 in
  if (55296 <=? c) && (c <=? 57343) then c + 12288 else c.

(** the 16-bit value a character stands for *)
Definition word_value (c : Z) : Z := ((if c <=? 65535 then c else c - 12288) - 2) mod 65536.

(** ** Header: version 3 and the 128-bit format id, as eight words, least
    significant first. *)
Definition known_uuids : list Z :=
  [ 0x33761B2D78BB4A438B0B4F5BEE8AACF3; 0x1DA0C57D6C06438A9B2710BCB3CE0F61;
    0xAADB8D7EAEEF4415AD2B8204D6CF042E; 0x596277843BE5417AB9EB8131A7286089 ].
(** the number written by a list of words, least significant first *)
Fixpoint number_of (ws : list Z) : Z :=
  match ws with [] => 0 | w :: ws => w mod 65536 + 65536 * number_of ws end.
Fixpoint words_of (n : nat) (x : Z) : list Z :=
  match n with O => [] | S n => x mod 65536 :: words_of n (x / 65536) end.

(** ** Descriptions *)
Inductive kind : Type :=
| KBasic | KRuleStart | KBlockStart (end_state : Z) | KPlusBlockStart (end_state : Z)
| KStarBlockStart (end_state : Z) | KTokenStart | KRuleStop | KBlockEnd | KStarLoopBack
| KStarLoopEntry | KPlusLoopBack | KLoopEnd (loop_back : Z).

Inductive edge : Type :=
| EEpsilon | ERange (lo hi : Z) | ERule (rule_start rule prec : Z)
| EPredicate (rule pred : Z) (ctx_dependent : bool) | EAtom (l : Z)
| EAction (rule action : Z) (ctx_dependent : bool) | ESet (i : Z) | ENotSet (i : Z)
| EWildcard | EPrecedence (prec : Z).

Record desc : Type := Desc {
  d_type : atn_type;
  d_max : Z;                            (* largest token type *)
  d_states : list (option (kind * Z));  (* kind and rule; None: a removed state *)
  d_nongreedy : list Z;                 (* non-greedy decision states *)
  d_leftrec : list Z;                   (* start states of left-recursive rules *)
  d_rules : list (Z * Z);               (* start state, token type (lexer only) *)
  d_modes : list Z;                     (* start states *)
  d_sets16 : list (list interval);      (* sets of code points below 2^16 *)
  d_sets32 : list (list interval);      (* the other sets *)
  d_edges : list (Z * Z * edge);        (* from, to (for a rule call: the follow state), label *)
  d_decisions : list Z;                 (* decision states *)
  d_actions : list lexer_action         (* lexer only *)
}.

Definition with_max (d : desc) (m : Z) : desc :=
  Desc (d_type d) m (d_states d) (d_nongreedy d) (d_leftrec d) (d_rules d) (d_modes d) (d_sets16 d) (d_sets32 d)
    (d_edges d) (d_decisions d) (d_actions d).

(** ** The serialized form: a list of 16-bit values *)
Definition kind_id (k : kind) : Z :=
  match k with
  | KBasic => 1 | KRuleStart => 2 | KBlockStart _ => 3 | KPlusBlockStart _ => 4 | KStarBlockStart _ => 5
  | KTokenStart => 6 | KRuleStop => 7 | KBlockEnd => 8 | KStarLoopBack => 9 | KStarLoopEntry => 10
  | KPlusLoopBack => 11 | KLoopEnd _ => 12
  end.
Definition ser_state (s : option (kind * Z)) : list Z :=
  match s with
  | None => [0]
  | Some (k, rule) => [kind_id k; rule] ++
      match k with
      | KBlockStart e | KPlusBlockStart e | KStarBlockStart e | KLoopEnd e => [e]
      | _ => []
      end
  end.
Definition counted {A} (f : A -> list Z) (l : list A) : list Z :=
  Z.of_nat (length l) :: flat_map f l.
Definition ser_point16 (x : Z) : list Z := [x].
Definition ser_point32 (x : Z) : list Z := [x mod 65536; x / 65536].
(** a set is written as the number of its ranges, a flag "contains EOF" (-1), and
    the ranges without EOF *)
Definition without_eof (l : list interval) : list interval :=
  match l with
  | Iv a b :: l' => if a =? -1 then (if b =? -1 then l' else Iv 0 b :: l') else l
  | [] => []
  end.
Definition has_eof (l : list interval) : bool :=
  match l with Iv a _ :: _ => a =? -1 | [] => false end.
Definition ser_set (point : Z -> list Z) (l : list interval) : list Z :=
  Z.of_nat (length (without_eof l)) :: (if has_eof l then 1 else 0) ::
  flat_map (fun r => point (iv_a r) ++ point (iv_b r)) (without_eof l).
Definition bit (b : bool) : Z := if b then 1 else 0.
Definition ser_edge (e : Z * Z * edge) : list Z :=
  let '(src, trg, e) := e in
  [src; trg] ++
  match e with
  | EEpsilon => [1; 0; 0; 0]
  | ERange lo hi => if lo =? -1 then [2; 0; hi; 1] else [2; lo; hi; 0]
  | ERule start rule prec => [3; start; rule; prec]
  | EPredicate rule pred c => [4; rule; pred; bit c]
  | EAtom l => if l =? -1 then [5; 0; 0; 1] else [5; l; 0; 0]
  | EAction rule act c => [6; rule; act; bit c]
  | ESet i => [7; i; 0; 0]
  | ENotSet i => [8; i; 0; 0]
  | EWildcard => [9; 0; 0; 0]
  | EPrecedence prec => [10; prec; 0; 0]
  end.
Definition ser_action (a : lexer_action) : list Z :=
  match a with
  | LexerChannelAction c => [0; c; 0]
  | LexerCustomAction r i => [1; r; i]
  | LexerModeAction m => [2; m; 0]
  | LexerMoreAction => [3; 0; 0]
  | LexerPopModeAction => [4; 0; 0]
  | LexerPushModeAction m => [5; m; 0]
  | LexerSkipAction => [6; 0; 0]
  | LexerTypeAction t => [7; t; 0]
  | LexerIndexedCustomAction _ _ => []  (* never serialized *)
  end.
Definition ser_body (d : desc) : list Z :=
  [match d_type d with LEXER => 0 | PARSER => 1 end; d_max d] ++
  counted ser_state (d_states d) ++
  counted (fun x => [x]) (d_nongreedy d) ++
  counted (fun x => [x]) (d_leftrec d) ++
  counted (fun r => match d_type d with LEXER => [fst r; snd r] | PARSER => [fst r] end) (d_rules d) ++
  counted (fun x => [x]) (d_modes d) ++
  counted (ser_set ser_point16) (d_sets16 d) ++
  counted (ser_set ser_point32) (d_sets32 d) ++
  counted ser_edge (d_edges d) ++
  counted (fun x => [x]) (d_decisions d) ++
  match d_type d with LEXER => counted ser_action (d_actions d) | PARSER => [] end.
(** version (written without offset), format id, body *)
Definition serialize (uuid : Z) (d : desc) : list Z :=
  3 :: map encode_word (words_of 8 uuid ++ ser_body d).

(** ** The ATN a description stands for *)

(** last position of [x] in a list *)
Fixpoint last_pos (i : Z) (x : Z) (l : list Z) : option Z :=
  match l with
  | [] => None
  | y :: l => match last_pos (i + 1) x l with
              | Some j => Some j
              | None => if y =? x then Some i else None
              end
  end.
Definition mem (x : Z) (l : list Z) : bool := existsb (Z.eqb x) l.
Definition or_default (o : option Z) (d : Z) : Z := match o with Some x => x | None => d end.

Definition kind_at (d : desc) (i : Z) : option (kind * Z) :=
  if i <? 0 then None else match nth_error (d_states d) (Z.to_nat i) with Some s => s | None => None end.
Definition start_of (d : desc) (r : Z) : option Z :=
  if r <? 0 then None else option_map fst (nth_error (d_rules d) (Z.to_nat r)).

(** For every state: its rule if it is a stop state, otherwise -1; then: the start
    state of that rule, otherwise -1. *)
Definition stop_rules (d : desc) : list Z :=
  map (fun s => match s with Some (KRuleStop, r) => r | _ => -1 end) (d_states d).
Definition stop_starts (d : desc) : list Z :=
  map (fun s => match s with Some (KRuleStop, r) => or_default (start_of d r) (-1) | _ => -1 end) (d_states d).
(** The stop state of a rule is the (last) stop state that belongs to it. *)
Definition stop_of (d : desc) (r : Z) : Z := or_default (last_pos 0 r (stop_rules d)) 0.

Definition sets_of (d : desc) : list interval_set := map (fun l => IS l false) (d_sets16 d ++ d_sets32 d).
Definition set_at (d : desc) (i : Z) : interval_set := nth (Z.to_nat i) (sets_of d) is_new.

Definition trans_of (d : desc) (trg : Z) (e : edge) : transition :=
  match e with
  | EEpsilon => Epsilon trg 0
  | ERange lo hi => Range trg lo hi
  | ERule start rule prec => RuleTr start trg rule prec
  | EPredicate rule pred c => PredicateTr trg c rule pred
  | EAtom l => Atom trg l
  | EAction rule act c => Action trg c rule act 0
  | ESet i => SetTr trg (set_at d i)
  | ENotSet i => NotSet trg (set_at d i)
  | EWildcard => Wildcard trg
  | EPrecedence prec => PrecedenceTr trg prec
  end.
(** The transitions a description gives to state [i]. *)
Definition own (d : desc) (i : Z) : list transition :=
  flat_map (fun e => let '(src, trg, e) := e in if src =? i then [trans_of d trg e] else []) (d_edges d).

(** A state with the given transitions, added in order (C45). *)
Definition with_transitions (s : atn_state) (ts : list transition) : atn_state := fold_left add_transition ts s.

(** The state type of a description, apart from the precedence mark. *)
Definition type_at (d : desc) (i : Z) (k : kind) (prec : bool) : state_type :=
  let decision := or_default (last_pos 0 i (d_decisions d)) (-1) in
  let ng := mem i (d_nongreedy d) in
  match k with
  | KBasic => BasicState
  | KRuleStart => RuleStartState (or_default (last_pos 0 i (stop_starts d)) 0) (mem i (d_leftrec d))
  | KBlockStart e => DecisionState decision ng (BlockStartState e BasicBlockStart)
  | KPlusBlockStart e => DecisionState decision ng (BlockStartState e (PlusBlockStart 0))
  | KStarBlockStart e => DecisionState decision ng (BlockStartState e StarBlockStart)
  | KTokenStart => DecisionState decision ng TokenStartState
  | KRuleStop => RuleStopState
  | KBlockEnd => BlockEndState 0
  | KStarLoopBack => StarLoopbackState
  | KStarLoopEntry => DecisionState decision ng (StarLoopEntry 0 prec)
  | KPlusLoopBack => DecisionState decision ng PlusLoopBack
  | KLoopEnd e => LoopEndState e
  end.

(** Kept rule calls of a state, in order: invoked start state, follow state, precedence. *)
Definition calls (d : desc) (i : Z) : list (Z * Z * Z) :=
  flat_map (fun t => match t with RuleTr g f _ p => [(g, f, p)] | _ => [] end)
    (st_trans (with_transitions new_base_atnstate (own d i))).
Definition positions (d : desc) : list Z := map Z.of_nat (seq 0 (length (d_states d))).
Definition rule_at (d : desc) (i : Z) : Z := match kind_at d i with Some (_, r) => r | None => -1 end.
Definition is_start_kind (k : option (kind * Z)) : bool := match k with Some (KRuleStart, _) => true | _ => false end.
(** Every rule call adds a return transition from the stop state of the rule to the
    follow state; it remembers the rule if the rule is left-recursive and the call
    is made with precedence 0. *)
Definition returns_to (d : desc) (i : Z) : list transition :=
  flat_map (fun c => let '(g, f, p) := c in
      let r := rule_at d g in
      let start := or_default (start_of d r) (-1) in
      if stop_of d r =? i
      then [Epsilon f (if is_start_kind (kind_at d start) && mem start (d_leftrec d) && (p =? 0) then r else -1)]
      else [])
    (flat_map (calls d) (positions d)).

(** The transitions of state [i] *)
Definition out (d : desc) (i : Z) : list transition :=
  st_trans (with_transitions new_base_atnstate (own d i ++ returns_to d i)).
Definition eps_only (d : desc) (i : Z) : bool :=
  st_eps_only (with_transitions new_base_atnstate (own d i ++ returns_to d i)).

(** A star-loop entry of a left-recursive rule whose last transition leads to a
    loop end that can only continue, without consuming, to the rule's stop state. *)
Definition precedence_entry (d : desc) (i : Z) : bool :=
  match kind_at d i with
  | Some (KStarLoopEntry, r) =>
      let start := or_default (start_of d r) (-1) in
      is_start_kind (kind_at d start) && mem start (d_leftrec d) &&
      match rev (out d i) with
      | t :: _ =>
          match kind_at d (get_target t) with
          | Some (KLoopEnd _, _) =>
              eps_only d (get_target t) &&
              match out d (get_target t) with
              | t0 :: _ => match kind_at d (get_target t0) with Some (KRuleStop, _) => true | _ => false end
              | [] => false
              end
          | _ => false
          end
      | [] => false
      end
  | _ => false
  end.

(** the rule of a state without a rule (-1) is stored as [usize::MAX] *)
Definition stored_rule (r : Z) : Z := if r =? -1 then 2 ^ 64 - 1 else r.

Definition state_of (d : desc) (i : Z) : atn_state :=
  match kind_at d i with
  | Some (k, r) => AState (stored_rule r) i (kind_id k) (type_at d i k (precedence_entry d i)) (out d i) (eps_only d i)
  | None => new_base_atnstate
  end.

Definition atn_of (d : desc) : atn :=
  Atn (d_decisions d) (d_type d) (match d_type d with LEXER => d_actions d | PARSER => [] end) (d_max d) (d_modes d)
    (map fst (d_rules d)) (map (fun r => stop_of d (Z.of_nat r)) (seq 0 (length (d_rules d))))
    (match d_type d with LEXER => map snd (d_rules d) | PARSER => [] end)
    (map (state_of d) (positions d)).

(** ** Which descriptions can be written at all *)

(** numbers that fit a word; -1 is used for "none" and for EOF *)
Definition word (v : Z) : Prop := -1 <= v <= 65533.
Definition nat_word (v : Z) : Prop := 0 <= v <= 65533.
Definition is_state (d : desc) (i : Z) : Prop := exists k r, kind_at d i = Some (k, r).
Definition is_rule (d : desc) (r : Z) : Prop := 0 <= r < Z.of_nat (length (d_rules d)).
Definition count_ok {A} (l : list A) : Prop := Z.of_nat (length l) <= 65533.

Definition set_in (hi : Z) (l : list interval) : Prop :=
  canonical l /\ (forall r, In r l -> -1 <= iv_a r /\ iv_b r <= hi) /\ count_ok l.
Definition edge_ok (d : desc) (e : edge) : Prop :=
  match e with
  | EEpsilon | EWildcard => True
  | ERange lo hi => word lo /\ word hi
  | ERule start rule prec => is_state d start /\ is_rule d (rule_at d start) /\ word rule /\ word prec
  | EPredicate a b _ | EAction a b _ => word a /\ word b
  | EAtom l => word l
  | ESet i | ENotSet i => nat_word i /\ 0 <= i < Z.of_nat (length (sets_of d))
  | EPrecedence p => word p
  end.
Definition action_ok (a : lexer_action) : Prop :=
  match a with
  | LexerChannelAction c => word c
  | LexerCustomAction r i => word r /\ word i
  | LexerModeAction m | LexerPushModeAction m => word m
  | LexerTypeAction t => word t
  | LexerMoreAction | LexerPopModeAction | LexerSkipAction => True
  | LexerIndexedCustomAction _ _ => False
  end.
Definition kind_ok (d : desc) (k : kind) (r : Z) : Prop :=
  match k with
  | KBlockStart e | KPlusBlockStart e | KStarBlockStart e | KLoopEnd e => nat_word e
  | KRuleStop => is_rule d r
  | _ => True
  end.
Record desc_ok (d : desc) : Prop := {
  ok_max : word (d_max d);
  ok_counts : count_ok (d_states d) /\ count_ok (d_nongreedy d) /\ count_ok (d_leftrec d) /\ count_ok (d_rules d) /\
    count_ok (d_modes d) /\ count_ok (d_sets16 d) /\ count_ok (d_sets32 d) /\ count_ok (d_edges d) /\
    count_ok (d_decisions d) /\ count_ok (d_actions d);
  (* no state was removed; states belong to a rule or to none (-1) *)
  ok_states : forall s, In s (d_states d) -> exists k r, s = Some (k, r) /\ word r /\ kind_ok d k r;
  ok_nongreedy : Forall (is_state d) (d_nongreedy d);
  ok_leftrec : Forall (is_state d) (d_leftrec d);
  ok_rules : Forall (fun r => is_state d (fst r) /\ word (snd r)) (d_rules d);
  ok_modes : Forall nat_word (d_modes d);
  ok_sets16 : Forall (set_in 65535) (d_sets16 d);
  ok_sets32 : Forall (set_in 1114111) (d_sets32 d);
  ok_edges : Forall (fun e => let '(src, trg, e) := e in is_state d src /\ is_state d trg /\ edge_ok d e) (d_edges d);
  ok_decisions : Forall (is_state d) (d_decisions d);
  ok_actions : Forall action_ok (d_actions d);
  (* a star-loop entry belongs to a rule and has a way out *)
  ok_entries : forall i r, kind_at d i = Some (KStarLoopEntry, r) -> is_rule d r /\ own d i <> []
}.
