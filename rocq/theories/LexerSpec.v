(** Specification vocabulary for the lexer properties C36-C42. *)
From Coq Require Import ZArith List Bool.
From Verif Require Import CharStreamModel CharStreamSpec AtnModel LexerModel.
From Verif Require FactoryModel.
Import ListNotations.
Local Open Scope Z_scope.

(** ** The text being lexed: a vector of code points, or a UTF-8 string.  [pos k] is the index of
    the [k]-th character. *)
Inductive text_source : input_data -> list Z -> list Z -> (nat -> Z) -> Prop :=
| code_points : forall cs, Forall (fun c => 0 <= c) cs -> text_source slice_data cs cs Z.of_nat
| utf8_string : forall cs, Forall valid_char cs -> text_source str_data (encode_all cs) cs (byte_pos cs).

(** ** Lines and columns.  Lines are counted from 1, columns from 0. *)
Definition line_after (before : list Z) : Z := 1 + Z.of_nat (count_occ Z.eq_dec before 10).
Definition column_after (before : list Z) (n : Z) : Prop :=
  exists earlier current, before = earlier ++ current /\ ~ In 10 current /\
    (earlier = [] \/ exists e, earlier = e ++ [10]) /\ n = Z.of_nat (length current).

(** ** Embedded code.  It may use the lexer as it likes, except for moving in the input and for the
    lexer's records of positions. *)
Definition same_place {U} (l l' : lexer U) : Prop :=
  lx_input U l' = lx_input U l /\ lx_line U l' = lx_line U l /\ lx_column U l' = lx_column U l /\
  lx_start U l' = lx_start U l /\ lx_start_line U l' = lx_start_line U l /\ lx_start_column U l' = lx_start_column U l /\
  lx_hit_eof U l' = lx_hit_eof U l /\ lx_errors U l' = lx_errors U l /\ lx_log U l' = lx_log U l.
(** actions, and the hook run before a token is made, do not move; predicates in addition do not
    set the type or the token *)
Definition place_keeping {U} (action : Z -> Z -> lexer U -> lexer U) (sempred : Z -> Z -> lexer U -> bool * lexer U)
    (before_emit : lexer U -> lexer U) : Prop :=
  (forall r i l, same_place l (action r i l)) /\
  (forall l, same_place l (before_emit l)) /\
  (forall r i l, same_place l (snd (sempred r i l)) /\ lx_type U (snd (sempred r i l)) = lx_type U l /\
     lx_token U (snd (sempred r i l)) = lx_token U l).
(** actions do not install a token of their own *)
Definition no_own_tokens {U} (action : Z -> Z -> lexer U -> lexer U) : Prop :=
  forall r i l, lx_token U (action r i l) = lx_token U l.

(** nor a text of their own for the token *)
Definition no_own_text {U} (action : Z -> Z -> lexer U -> lexer U) (sempred : Z -> Z -> lexer U -> bool * lexer U)
    (before_emit : lexer U -> lexer U) : Prop :=
  (forall r i l, lx_text U (action r i l) = lx_text U l) /\
  (forall r i l, lx_text U (snd (sempred r i l)) = lx_text U l) /\ (forall l, lx_text U (before_emit l) = lx_text U l).

(** ** What becomes of the matches.  Consecutive matches are joined as long as they ask for more;
    the joined piece is emitted, skipped, or dropped because the last match failed. *)
Inductive fate : Type := Emitted | Skipped | Dropped.
Definition fate_of (m : matched) : fate :=
  if m_failed m then Dropped else if m_type m =? -3 then Skipped else Emitted.
(** [p_type]: the token type in force after the last match of the piece *)
Record piece : Type := Piece { p_from : Z; p_to : Z; p_fate : fate; p_type : Z }.
Fixpoint pieces (open : option Z) (log : list matched) : list piece :=
  match log with
  | [] => []
  | m :: log =>
      let from := match open with Some f => f | None => m_from m end in
      if negb (m_failed m) && (m_type m =? -2) then pieces (Some from) log
      else Piece from (m_to m) (fate_of m) (m_type m) :: pieces None log
  end.
Definition is_emitted (p : piece) : bool := match p_fate p with Emitted => true | _ => false end.
Definition is_dropped (p : piece) : bool := match p_fate p with Dropped => true | _ => false end.

(** Matches follow each other without gap or overlap: match [i] covers the characters between
    [bounds[i]] and [bounds[i + 1]]. *)
Inductive contiguous (pos : nat -> Z) : nat -> list matched -> nat -> Prop :=
| contiguous_nil : forall k, contiguous pos k [] k
| contiguous_cons : forall k k' n m log, (k <= k')%nat -> m_from m = pos k -> m_to m = pos k' ->
    contiguous pos k' log n -> contiguous pos k (m :: log) n.

(** Pieces cover the characters [k], ..., [n - 1], each after the other. *)
Inductive tiles (pos : nat -> Z) : nat -> list piece -> nat -> Prop :=
| tiles_nil : forall k, tiles pos k [] k
| tiles_cons : forall k k' n p ps, (k <= k')%nat -> p_from p = pos k -> p_to p = pos k' ->
    tiles pos k' ps n -> tiles pos k (p :: ps) n.
Definition covers (p : piece) (index : Z) : Prop := p_from p <= index < p_to p.

(** ** Tokens and reports.  The token made of a piece, the token at the end of the input, and the
    report of a dropped piece; positions are those of the first character. *)
Section Reports.
  Variables raw cs : list Z.
  Variable pos : nat -> Z.
  Definition located (index line column : Z) : Prop :=
    exists k, (k <= length cs)%nat /\ index = pos k /\ line = line_after (firstn k cs) /\ column_after (firstn k cs) column.
  Definition token_of (t : FactoryModel.token) (p : piece) : Prop :=
    FactoryModel.start t = p_from p /\ FactoryModel.stop t = p_to p - 1 /\
    located (p_from p) (FactoryModel.line t) (FactoryModel.column t).
  Definition eof_token (t : FactoryModel.token) : Prop :=
    FactoryModel.token_type t = -1 /\ FactoryModel.start t = zlen raw /\ FactoryModel.stop t = zlen raw - 1 /\
    located (zlen raw) (FactoryModel.line t) (FactoryModel.column t).
  Definition report_of (r : Z * Z * list Z) (p : piece) : Prop :=
    let '(line, column, text) := r in
    located (p_from p) line column /\ text = sub_list raw (p_from p) (p_to p).
End Reports.

(** ** Mode commands *)
Inductive mode_command : Type := PushMode (m : Z) | PopMode | SetMode (m : Z).
Definition command {U} (l : lexer U) (c : mode_command) : lexer U :=
  match c with
  | PushMode m => push_mode U l m
  | PopMode => fst (pop_mode U l)
  | SetMode m => set_mode U l m
  end.
Definition commands {U} (l : lexer U) (cs : list mode_command) : lexer U := fold_left command cs l.
Inductive balanced : list mode_command -> Prop :=
| balanced_nil : balanced []
| balanced_set : forall m, balanced [SetMode m]
| balanced_push : forall m b, balanced b -> balanced (PushMode m :: b ++ [PopMode])
| balanced_app : forall b c, balanced b -> balanced c -> balanced (b ++ c).

(** ** Actions.  Where the stream stands when an action of a match from [start] to [stop] is run:
    one that was followed by more input in its rule stands at the recorded offset, all others at
    the end of the match. *)
Definition place_of (start stop : Z) (x : lexer_action) : Z :=
  match x with LexerIndexedCustomAction offset _ => start + offset | _ => stop end.
Definition move_to {U} (l : lexer U) (i : Z) : lexer U := with_input U l (IStream (data_raw (lx_input U l)) i).

(** What happens while a rule is matched: an action is passed, or a character is about to be
    consumed at an index. *)
Inductive rule_event : Type := Passed (x : lexer_action) | Consuming (index : Z).
(** The action list collected from the events (as the closure does it). *)
Definition collect (start : Z) (xs : list lexer_action) (e : rule_event) : list lexer_action :=
  match e with
  | Passed x => xs ++ [x]
  | Consuming index => map (fix_offset (index - start)) xs
  end.
(** The first index consumed at in a list of events. *)
Fixpoint next_consumed (es : list rule_event) : option Z :=
  match es with
  | [] => None
  | Passed _ :: es => next_consumed es
  | Consuming i :: _ => Some i
  end.
(** The actions passed, with the index of the next character consumed after each. *)
Fixpoint passed_at (es : list rule_event) : list (lexer_action * option Z) :=
  match es with
  | [] => []
  | Passed x :: es => (x, next_consumed es) :: passed_at es
  | Consuming _ :: es => passed_at es
  end.
