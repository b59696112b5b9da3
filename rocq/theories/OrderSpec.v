(** Trees of expressions with prefix, suffix, binary and ternary operators (C101). *)
From Coq Require Import ZArith List Bool.
From Verif Require Import Outcome IntervalSetModel PredContextModel AtnModel AtnSpec Ll1Model Ll1Spec ParserModel ParserSpec RecSpec OperatorSpec.
Import ListNotations.
Local Open Scope Z_scope.

(** [t] is a part of the tree, or the tree itself *)
Inductive within (t : tree) : tree -> Prop :=
| within_here : within t t
| within_child : forall r k kids c, In c kids -> within t c -> within t (Node r k kids).

Section Trees.
  (** the rule of the expressions; the level of each operator that follows a left operand
      (the higher, the tighter it binds); and the least level of operators in the right
      operand of an operator: one more than its own level if it associates to the left,
      its own level if it associates to the right; likewise for operators that stand first *)
  Variable rule : Z.
  Variable level : Z -> option Z.
  Variable operand : Z -> Z.
  Variable prefix : Z -> Z.

  (** the operand at the end, if there is one *)
  Definition open_end (kids : list tree) : option tree :=
    match rev kids with
    | Node r k l :: _ => if r =? rule then Some (Node r k l) else None
    | _ => None
    end.
  (** An operation: its left operand, its operator (the token that begins it: of [a ? b : c]
      the question mark) and its right operand.  An operation may have no left operand
      (prefix operators) or no right operand (suffix operators, calls, indices). *)
  Inductive parts : tree -> option tree -> tok -> option tree -> Prop :=
  | pa_infix : forall k kl ll o rest, parts (Node rule k (Node rule kl ll :: Leaf o :: rest)) (Some (Node rule kl ll)) o (open_end rest)
  | pa_prefix : forall k o rest r, open_end rest = Some r -> parts (Node rule k (Leaf o :: rest)) None o (Some r).
  (** the least level of operators in the right operand *)
  Definition asks (l : option tree) (o : tok) : Z := match l with Some _ => operand (t_type o) | None => prefix (t_type o) end.
  (** the operator [x], after a left operand, has at least the level [q] *)
  Definition binds (q x : Z) : Prop := exists k, level x = Some k /\ q <= k.

  (** the operators whose left operand begins where the expression begins *)
  Inductive left_edge : tree -> Z -> Prop :=
  | left_here : forall t l o r, parts t (Some l) o r -> left_edge t (t_type o)
  | left_down : forall t l o r x, parts t (Some l) o r -> left_edge l x -> left_edge t x.
  (** what the operators ask for whose right operand ends where the expression ends *)
  Inductive right_edge : tree -> Z -> Prop :=
  | right_here : forall t l o r, parts t l o (Some r) -> right_edge t (asks l o)
  | right_down : forall t l o r q, parts t l o (Some r) -> right_edge r q -> right_edge t q.

  (** Every operation of the tree has the operands it should have: the operators at the
      left edge of its right operand have the level it asks for; those at the right edge of
      its left operand would not have taken its operator for their own right operand. *)
  Definition nested (T : tree) : Prop := forall t l o r, within t T -> parts t l o r ->
    (forall l', l = Some l' -> (exists k, level (t_type o) = Some k) /\ forall q, right_edge l' q -> ~ binds q (t_type o)) /\
    (forall r', r = Some r' -> forall x, left_edge r' x -> binds (asks l o) x).

  (** the expression without its structure, as it is written: operands and operators, the
      latter with what stands between them and their right operand *)
  Inductive item : Type :=
  | Operand (t : tree)
  | Prefix (kind : nat) (o : tok) (middle : list tree)
  | Infix (kind : nat) (o : tok) (middle : list tree)
  | Suffix (kind : nat) (o : tok) (rest : list tree).
  Inductive spelled : tree -> list item -> Prop :=
  | sp_operand : forall t, (forall l o r, ~ parts t l o r) -> spelled t [Operand t]
  | sp_prefix : forall k o middle kr lr v, spelled (Node rule kr lr) v ->
      spelled (Node rule k (Leaf o :: middle ++ [Node rule kr lr])) (Prefix k o middle :: v)
  | sp_infix : forall k kl ll o middle kr lr u v, spelled (Node rule kl ll) u -> spelled (Node rule kr lr) v ->
      spelled (Node rule k (Node rule kl ll :: Leaf o :: middle ++ [Node rule kr lr])) (u ++ Infix k o middle :: v)
  | sp_suffix : forall k kl ll o rest u, spelled (Node rule kl ll) u -> open_end rest = None ->
      spelled (Node rule k (Node rule kl ll :: Leaf o :: rest)) (u ++ [Suffix k o rest]).
  (** Sequences of operands and operators that can be an expression: prefix operators and an
      operand, then suffix operators, then the end or an operator between operands and more.
      What is in parentheses, and the like, is nested as it should be. *)
  Inductive written : list item -> Prop :=
  | wr_operand : forall k l w, (forall x o r, ~ parts (Node rule k l) x o r) -> nested (Node rule k l) -> continued w -> written (Operand (Node rule k l) :: w)
  | wr_prefix : forall k o middle w, Forall nested middle -> written w -> written (Prefix k o middle :: w)
  with continued : list item -> Prop :=
  | co_end : continued []
  | co_infix : forall k o middle w, (exists j, level (t_type o) = Some j) -> Forall nested middle -> written w -> continued (Infix k o middle :: w)
  | co_suffix : forall k o rest w, (exists j, level (t_type o) = Some j) -> Forall nested rest -> open_end rest = None -> continued w -> continued (Suffix k o rest :: w).
End Trees.

(** ** The rule of such expressions, as the tool rewrites it: a primary expression (or a
    prefix operator and its operand), and then the loop of [OperatorSpec], in which
    operators are followed by whatever belongs to them and, at the end or not, by a call of
    the rule at the level of the right operand. *)
(** Where a state is: nothing read yet ([First]); in an alternative of which a part was
    read, its right operand to be called at the level [op] if there is one, where the last
    part is surely not an expression if [closed]; or just before that call. *)
Inductive stage : Type := First | Part (op : option Z) (closed : bool) | Call (p : Z) | Other.
Definition is_next (c : call) : bool := match c with CNext _ _ => true | _ => false end.
Section Rule.
  Variable a : atn.
  Variable plan : Z -> Z -> list call.
  Variable recursive : Z -> bool.
  Variable rule start : Z.
  Variable operand : Z -> Z.
  Variable prefix : Z -> Z.
  Variable where_ : Z -> place.
  Variable stage_ : Z -> stage.
  (** the states at which an operator is tested for its level *)
  Variable tests : Z -> bool.
  (** on to the next part, to the call of the right operand, or, if nothing is open, to the loop *)
  Definition onward (op : option Z) (closed : bool) (i : Z) : Prop :=
    (exists c, stage_ i = Part op c /\ (c = true -> closed = true)) \/ (exists p, op = Some p /\ stage_ i = Call p) \/ (closed = true /\ where_ i = Return).
  Record operator_rule : Prop := {
    or_recursive : recursive rule = true;
    or_start : stage_ start = First /\ Ll1Spec.rule_of a start = rule;
    or_calls : forall i g f p, leads a i (RuleTr g f rule p) -> g = start;
    (** a primary does not begin with a call of the rule itself *)
    or_first : forall i s, state_at a i = Some s -> stage_ i = First -> ~ Ll1Spec.is_stop s /\ forall t, In t (st_trans s) ->
      match t with
      | Epsilon g _ | Action g _ _ _ _ | PredicateTr g _ _ _ | PrecedenceTr g _ => stage_ g = First
      | RuleTr _ f r _ => r <> rule /\ onward None true f
      | t => forall x, symbols t 1 (max_token_type a) x -> onward (Some (prefix x)) true (get_target t)
      end;
    or_part : forall i s op c, state_at a i = Some s -> stage_ i = Part op c -> ~ Ll1Spec.is_stop s /\ forall t, In t (st_trans s) ->
      match t with
      | Epsilon g _ | Action g _ _ _ _ | PredicateTr g _ _ _ | PrecedenceTr g _ => onward op c g
      | RuleTr _ f r _ => if r =? rule then onward op false f else onward op true f
      | t => onward op true (get_target t)
      end;
    (** operators *)
    or_operator : forall i t k x, where_ i = Operator k -> leads a i t -> symbols t 1 (max_token_type a) x -> onward (Some (operand x)) true (get_target t);
    or_call : forall i s p, state_at a i = Some s -> stage_ i = Call p -> ~ Ll1Spec.is_stop s /\ forall t, In t (st_trans s) ->
      exists f, t = RuleTr start f rule p /\ where_ f = Return;
    (** a new node is begun where an operator is tested, and only there *)
    or_tests : forall i s t, state_at a i = Some s -> where_ i = Enter -> In t (st_trans s) ->
      if tests i then exists g k, t = PrecedenceTr g k else exists g o, t = Epsilon g o;
    or_not_tests : forall i, tests i = true -> where_ i = Enter /\ stage_ i = Other;
    or_next : forall from i, Ll1Spec.rule_of a i = rule -> length (filter is_next (plan from i)) = if tests i then 1%nat else 0%nat
  }.
End Rule.
(** the loop has a decision of its own *)
Definition own_decision (a : atn) (entry decision : Z) : Prop :=
  (exists s g x, state_at a entry = Some s /\ st_type s = DecisionState decision g x) /\
  forall i s g x, state_at a i = Some s -> st_type s = DecisionState decision g x -> i = entry.
