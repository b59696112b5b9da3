(** The tokens a lexer grammar gives for a text, from longest match, rule order and the lexer
    commands (skip, more, type, channel, mode, pushMode, popMode). *)
From Coq Require Import ZArith List Bool.
From Verif Require Import CharStreamModel CharStreamSpec AtnModel AtnSpec Ll1Spec LexerModel LexerSpec LexMatchSpec.
From Verif Require FactoryModel.
Import ListNotations.
Local Open Scope Z_scope.

(** ** Commands *)
(** the mode the lexer is in, and those to return to, the innermost first *)
Record modes : Type := Modes { in_mode : Z; saved : list Z }.
(** what is to become of the text matched: a token of the type declared for its rule or of
    another type, nothing, or the beginning of something longer *)
Inductive verdict : Type := AsDeclared | AsType (t : Z) | ToSkip | ToContinue.
Record asked : Type := Asked { asked_for : verdict; on_channel : Z; to_modes : modes }.
Definition obey (s : asked) (x : lexer_action) : asked :=
  let '(Asked v c m) := s in
  match x with
  | LexerTypeAction t => Asked (AsType t) c m
  | LexerSkipAction => Asked ToSkip c m
  | LexerMoreAction => Asked ToContinue c m
  | LexerChannelAction c' => Asked v c' m
  | LexerModeAction i => Asked v c (Modes i (saved m))
  | LexerPushModeAction i => Asked v c (Modes i (in_mode m :: saved m))
  | LexerPopModeAction => Asked v c (match saved m with [] => m | i :: is => Modes i is end)
  | LexerCustomAction _ _ | LexerIndexedCustomAction _ _ => s
  end.
Definition obey_all (xs : list lexer_action) (c : Z) (m : modes) : asked := fold_left obey xs (Asked AsDeclared c m).

(** ** One match *)
(** Which text and which rule: the longest match, and the first rule that matches it. *)
Definition maximal_munch (a : atn) (mode : Z) (rest : list Z) (n rule : nat) : Prop :=
  longest_match a mode rest n /\ first_rule a mode (firstn n rest) rule.
(** The first [n] characters of [rest] are matched by a rule, which has the type [ty] and the commands
    [xs]; [picks] says which text and rule it may be ([maximal_munch], or another choice). *)
Definition match_found (picks : Z -> list Z -> nat -> nat -> Prop) (a : atn) (mode : Z) (rest : list Z) (n : nat) (ty : Z) (xs : list lexer_action) : Prop :=
  exists rule, picks mode rest n rule /\
    rule_has_type a mode rule ty /\ rule_matches_with a mode rule (firstn n rest) xs.
(** after [w], some rule is complete or waits for another character *)
Definition under_way (a : atn) (mode : Z) (w : list Z) : Prop :=
  exists k q xs i st s, rule_begins a mode k q /\ run a (q, []) w xs (i, st) /\ state_at a i = Some s /\
    ((is_stop s /\ st = []) \/ (~ is_stop s /\ st_eps_only s = false)).
(** nothing matches: the characters looked at, the first that cannot continue any rule among them *)
Definition looked_at (a : atn) (mode : Z) (rest : list Z) (n : nat) : Prop :=
  nothing_matches a mode rest /\ exists j, (j <= length rest)%nat /\
    (forall i, (0 < i <= j)%nat -> under_way a mode (firstn i rest)) /\
    ((j < length rest)%nat -> ~ under_way a mode (firstn (S j) rest)) /\ n = Nat.min (S j) (length rest).

(** ** Stretches of the text: what becomes a token, is skipped, or is reported as an error *)
Inductive ending : Type := Made (type channel : Z) | Skipped | Reported.
Record stretch : Type := Stretch { s_from : nat; s_to : nat; s_ending : ending }.

Section Lexing.
  Variable picks : Z -> list Z -> nat -> nat -> Prop.
  Variable a : atn.
  Variable cs : list Z.
  (** from character [k] on, having begun at [from]; the channel and the modes before; the stretch and
      the modes after *)
  Inductive scans (from : nat) : nat -> Z -> modes -> stretch -> modes -> Prop :=
  | scan_declared : forall k c m n ty xs c' m', match_found picks a (in_mode m) (skipn k cs) n ty xs ->
      obey_all xs c m = Asked AsDeclared c' m' -> scans from k c m (Stretch from (k + n) (Made ty c')) m'
  | scan_type : forall k c m n ty xs t c' m', match_found picks a (in_mode m) (skipn k cs) n ty xs ->
      obey_all xs c m = Asked (AsType t) c' m' -> scans from k c m (Stretch from (k + n) (Made t c')) m'
  | scan_skip : forall k c m n ty xs c' m', match_found picks a (in_mode m) (skipn k cs) n ty xs ->
      obey_all xs c m = Asked ToSkip c' m' -> scans from k c m (Stretch from (k + n) Skipped) m'
  | scan_more : forall k c m n ty xs c' m' s m'', match_found picks a (in_mode m) (skipn k cs) n ty xs ->
      obey_all xs c m = Asked ToContinue c' m' -> scans from (k + n) c' m' s m'' -> scans from k c m s m''
  | scan_end : forall c m, nothing_matches a (in_mode m) [] -> scans from (length cs) c m (Stretch from (length cs) (Made (-1) c)) m
  | scan_error : forall k c m n, (k < length cs)%nat -> looked_at a (in_mode m) (skipn k cs) n ->
      scans from k c m (Stretch from (k + n) Reported) m.

  (** [produces done k m n ss]: the stretches up to the [n]-th token from character [k] on; [done]
      once something ended at the end of the input *)
  Inductive produces : bool -> nat -> modes -> nat -> list stretch -> Prop :=
  | produces_none : forall d k m, produces d k m 0 []
  | produces_eof : forall k m n ss, produces true k m n ss -> produces true k m (S n) (Stretch k k (Made (-1) 0) :: ss)
  | produces_token : forall k m ty c from to m' n ss, scans k k 0 m (Stretch from to (Made ty c)) m' ->
      produces (Nat.eqb to (length cs)) to m' n ss -> produces false k m (S n) (Stretch from to (Made ty c) :: ss)
  | produces_other : forall k m from to e m' n ss, scans k k 0 m (Stretch from to e) m' -> (e = Skipped \/ e = Reported) ->
      produces (Nat.eqb to (length cs)) to m' (S n) ss -> produces false k m (S n) (Stretch from to e :: ss).
  (** the first [n] tokens of the text *)
  Definition lexes_by (n : nat) (ss : list stretch) : Prop := produces false 0 (Modes 0 []) n ss.
End Lexing.
(** ... if each match is the longest one, for the first rule that has it *)
Definition lexes_to (a : atn) (cs : list Z) (n : nat) (ss : list stretch) : Prop := lexes_by (maximal_munch a) a cs n ss.
Definition made (s : stretch) : bool := match s_ending s with Made _ _ => true | _ => false end.
Definition reported (s : stretch) : bool := match s_ending s with Reported => true | _ => false end.

(** ** Tokens and reports *)
Section Shown.
  Variables raw cs : list Z.
  Variable pos : nat -> Z.
  Definition shows (t : FactoryModel.token) (s : stretch) : Prop :=
    exists ty c, s_ending s = Made ty c /\ FactoryModel.token_type t = ty /\ FactoryModel.channel t = c /\
      FactoryModel.start t = pos (s_from s) /\ FactoryModel.stop t = pos (s_to s) - 1 /\ FactoryModel.token_index t = -1 /\
      FactoryModel.line t = line_after (firstn (s_from s) cs) /\ column_after (firstn (s_from s) cs) (FactoryModel.column t) /\
      FactoryModel.token_get_text t = if ty =? -1 then FactoryModel.eof_text else sub_list raw (pos (s_from s)) (pos (s_to s)).
  Definition reports (r : Z * Z * list Z) (s : stretch) : Prop :=
    let '(line, column, text) := r in
    line = line_after (firstn (s_from s) cs) /\ column_after (firstn (s_from s) cs) column /\
    text = sub_list raw (pos (s_from s)) (pos (s_to s)).
End Shown.

(** ** Grammars *)
(** commands name modes that exist, and there is a mode to begin with *)
Definition modes_exist (a : atn) : Prop :=
  item (mode_to_start_state a) 0 <> None /\
  forall x, In x (lexer_actions a) ->
    match x with LexerModeAction i | LexerPushModeAction i => item (mode_to_start_state a) i <> None | _ => True end.
(** the numbers that stand for no type, more and skip are not used as types *)
Definition proper_types (a : atn) : Prop :=
  (forall t, In (LexerTypeAction t) (lexer_actions a) -> ~ In t [0; -2; -3]) /\
  (forall t, In t (rule_to_token_type a) -> ~ In t [-2; -3]).
