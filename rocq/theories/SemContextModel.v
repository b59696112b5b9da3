(** Model of /repo/src/semantic_context.rs (predicates and precedence
    predicates collected during prediction).

    Simplifications, valid for the whole file:
    - [isize] is [Z] (no arithmetic is done on these numbers);
    - a user predicate is a pure oracle [sempred]: the code passes [&mut parser],
      so that a predicate could also change the parser while it is evaluated;
    - [HashSet<SemanticContext>] is a duplicate-free list in insertion order, and
      each conversion of such a set into a [Vec] goes through an arbitrary
      reordering [order].  The reordering also receives an address (a list of
      numbers, different for every conversion made during one call), so that no
      two conversions are forced to agree on the order. *)
From Coq Require Import ZArith List Bool.
Import ListNotations.
Local Open Scope Z_scope.

(** semantic_context.rs 21-31, [enum SemanticContext] *)
Inductive sem : Type :=
| Predicate (rule_index pred_index : Z) (is_ctx_dependent : bool)
| Precedence (prec : Z)
| And (ops : list sem)
| Or (ops : list sem).

(** semantic_context.rs 34-38 *)
Definition NONE : sem := Predicate (-1) (-1) false.

(** semantic_context.rs 21, derived [PartialEq]: structural equality, operand
    lists compared in order *)
Fixpoint sem_eqb (a b : sem) {struct a} : bool :=
  let fix list_eqb (x y : list sem) {struct x} : bool :=
    match x, y with
    | [], [] => true
    | u :: x', v :: y' => sem_eqb u v && list_eqb x' y'
    | _, _ => false
    end in
  match a, b with
  | Predicate r p d, Predicate r' p' d' => (r =? r') && (p =? p') && Bool.eqb d d'
  | Precedence n, Precedence n' => n =? n'
  | And x, And y => list_eqb x y
  | Or x, Or y => list_eqb x y
  | _, _ => false
  end.

Section SemContext.
  (** the rule context handed to predicates *)
  Variable ctx : Type.
  (** recognizer.rs 26-36 / parser.rs 202-209, [sempred(localctx, rule_index,
      pred_index)], supplied by the generated parser *)
  Variable sempred : option ctx -> Z -> Z -> bool.
  (** parser.rs, [get_precedence()] of the running parser *)
  Variable cur : Z.
  (** iteration order of a hash set, per conversion *)
  Variable order : list nat -> list sem -> list sem.

  (** parser.rs 293-297 *)
  Definition precpred (precedence : Z) : bool := precedence >=? cur.

  (** semantic_context.rs 39-61, [evaluate] *)
  Fixpoint evaluate (outer : ctx) (s : sem) : bool :=
    match s with
    | Predicate r p dep => sempred (if dep then Some outer else None) r p
    | Precedence n => precpred n
    | And ops => forallb (evaluate outer) ops
    | Or ops => existsb (evaluate outer) ops
    end.

  (** [HashSet::insert], [HashSet::extend]: a present element is not replaced *)
  Definition set_insert (s : list sem) (x : sem) : list sem :=
    if existsb (sem_eqb x) s then s else s ++ [x].
  Definition set_extend (s xs : list sem) : list sem := fold_left set_insert xs s.

  Definition is_precedence (s : sem) : bool :=
    match s with Precedence _ => true | _ => false end.

  (** semantic_context.rs 242-253, [filter_precedence_predicate]: returns the
      remaining set and the removed precedence predicates *)
  Definition filter_precedence_predicate (c : list sem) : list sem * list sem :=
    (filter (fun s => negb (is_precedence s)) c, filter is_precedence c).

  (** semantic_context.rs 154 and 235-240, [min_by(sort_prec_pred)].  The
      comparison's panic branch needs a non-precedence operand, which
      [filter_precedence_predicate] never returns; here such an operand is
      ignored. [min_by] keeps the first of equal elements. *)
  Fixpoint min_prec (l : list sem) : option sem :=
    match l with
    | [] => None
    | Precedence n :: l' =>
        match min_prec l' with
        | Some (Precedence m) => Some (Precedence (if n <=? m then n else m))
        | _ => Some (Precedence n)
        end
    | _ :: l' => min_prec l'
    end.

  (** semantic_context.rs 182, [max_by(sort_prec_pred)] *)
  Fixpoint max_prec (l : list sem) : option sem :=
    match l with
    | [] => None
    | Precedence n :: l' =>
        match max_prec l' with
        | Some (Precedence m) => Some (Precedence (if n <=? m then m else n))
        | _ => Some (Precedence n)
        end
    | _ :: l' => max_prec l'
    end.

  (** semantic_context.rs 139-163, [new_and]; [at] is the address of this call *)
  Definition new_and (at_ : list nat) (a b : sem) : sem :=
    let operands := match a with And ops => set_extend [] ops | _ => set_insert [] a end in
    let operands := match b with And ops => set_extend operands ops | _ => set_insert operands b end in
    let '(operands, precs) := filter_precedence_predicate operands in
    let operands := match min_prec precs with Some r => set_insert operands r | None => operands end in
    match order at_ operands with
    | [x] => x
    | l => And l
    end.

  (** semantic_context.rs 165-191, [new_or] *)
  Definition new_or (at_ : list nat) (a b : sem) : sem :=
    let operands := match a with Or ops => set_extend [] ops | _ => set_insert [] a end in
    let operands := match b with Or ops => set_extend operands ops | _ => set_insert operands b end in
    let '(operands, precs) := filter_precedence_predicate operands in
    let operands := match max_prec precs with Some r => set_insert operands r | None => operands end in
    match order at_ operands with
    | [x] => x
    | l => Or l
    end.

  (** semantic_context.rs 193-213, [and] *)
  Definition sem_and (at_ : list nat) (a b : option sem) : sem :=
    match a, b with
    | None, None => NONE
    | None, Some b => b
    | Some a, None => a
    | Some a, Some b =>
        if sem_eqb a NONE then b
        else if sem_eqb b NONE then a
        else new_and at_ a b
    end.

  (** semantic_context.rs 215-232, [or] *)
  Definition sem_or (at_ : list nat) (a b : option sem) : sem :=
    match a, b with
    | None, None => NONE
    | None, Some b => b
    | Some a, None => a
    | Some a, Some b =>
        if sem_eqb a NONE || sem_eqb b NONE then NONE
        else new_or at_ a b
    end.

  (** semantic_context.rs 100-104 and 130-134: fold the surviving operands;
      the address of the n-th combination is [n :: at_] *)
  Fixpoint fold_ops (op : list nat -> option sem -> option sem -> sem)
      (at_ : list nat) (n : nat) (acc : sem) (l : list sem) : sem :=
    match l with
    | [] => acc
    | x :: l' => fold_ops op at_ (S n) (op (n :: at_) (Some acc) (Some x)) l'
    end.

  (** result of the operand loop: [Return r] is an early [return r] *)
  Inductive loop_result : Type :=
  | Return (r : option sem)
  | Fallthrough (differs : bool) (operands : list sem).

  (** semantic_context.rs 62-137, [eval_precedence].  [Cow] is the value it
      holds.  Line 81/111 is transcribed as written: [differs] becomes true when
      an operand evaluates to *itself*. *)
  Fixpoint eval_precedence (at_ : list nat) (self : sem) {struct self} : option sem :=
    match self with
    | Predicate _ _ _ => Some self
    | Precedence prec => if precpred prec then Some NONE else None
    | Or ops =>
        let fix go (i : nat) (differs : bool) (operands : list sem) (l : list sem)
            {struct l} : loop_result :=
          match l with
          | [] => Fallthrough differs operands
          | c :: l' =>
              let evaluated := eval_precedence (i :: at_) c in
              let differs := differs || match evaluated with Some e => sem_eqb c e | None => false end in
              match evaluated with
              | Some e => if sem_eqb e NONE then Return (Some NONE)
                          else go (S i) differs (operands ++ [e]) l'
              | None => go (S i) differs operands l'
              end
          end in
        match go O false [] ops with
        | Return r => r
        | Fallthrough differs operands =>
            if negb differs then Some self
            else match operands with
                 | [] => None
                 | r :: operands => Some (fold_ops sem_or at_ (length ops) r operands)
                 end
        end
    | And ops =>
        let fix go (i : nat) (differs : bool) (operands : list sem) (l : list sem)
            {struct l} : loop_result :=
          match l with
          | [] => Fallthrough differs operands
          | c :: l' =>
              let evaluated := eval_precedence (i :: at_) c in
              let differs := differs || match evaluated with Some e => sem_eqb c e | None => false end in
              match evaluated with
              | Some e => if sem_eqb e NONE then go (S i) differs operands l'
                          else go (S i) differs (operands ++ [e]) l'
              | None => Return None
              end
          end in
        match go O false [] ops with
        | Return r => r
        | Fallthrough differs operands =>
            if negb differs then Some self
            else match operands with
                 | [] => Some NONE
                 | r :: operands => Some (fold_ops sem_and at_ (length ops) r operands)
                 end
        end
    end.
End SemContext.
