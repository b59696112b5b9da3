(** Model of src/interval_set.rs (IntervalSet).  No proofs in this file. *)
From Coq Require Import ZArith List Bool.
From Verif Require Export Text.
Import ListNotations.
Open Scope Z_scope.

(** interval_set.rs:10-15  [struct Interval { a, b }] (isize modelled as unbounded Z). *)
Record interval := Iv { iv_a : Z; iv_b : Z }.

(** interval_set.rs:9 derived PartialEq of Interval. *)
Definition iv_eqb (x y : interval) : bool := (iv_a x =? iv_a y) && (iv_b x =? iv_b y).

(** interval_set.rs:27-29  Interval::length (b - a, NOT the number of elements). *)
Definition iv_length (x : interval) : Z := iv_b x - iv_a x.

(** interval_set.rs:31-36  Interval::union (hull). *)
Definition iv_union (x y : interval) : interval :=
  Iv (Z.min (iv_a x) (iv_a y)) (Z.max (iv_b x) (iv_b y)).

(** interval_set.rs:39-41 *)
Definition starts_before_disjoint (x y : interval) : bool :=
  (iv_a x <? iv_a y) && (iv_b x <? iv_a y).

(** interval_set.rs:54-56 *)
Definition starts_after_disjoint (x y : interval) : bool := iv_a x >? iv_b y.

(** interval_set.rs:64-66 *)
Definition disjoint (x y : interval) : bool :=
  starts_before_disjoint x y || starts_after_disjoint x y.

(** interval_set.rs:69-71 *)
Definition adjacent (x y : interval) : bool :=
  (iv_a x =? iv_b y + 1) || (iv_b x =? iv_a y - 1).

(** interval_set.rs:131 / 143: the test "next to each other or overlapping". *)
Definition touches (x y : interval) : bool := adjacent x y || negb (disjoint x y).

(** interval_set.rs:93-97  struct IntervalSet { intervals, read_only }. *)
Record interval_set := IS { intervals : list interval; read_only : bool }.

(** interval_set.rs:101-106  IntervalSet::new *)
Definition is_new : interval_set := IS [] false.

(** interval_set.rs:108-110  get_min *)
Definition get_min (s : interval_set) : option Z :=
  match intervals s with [] => None | x :: _ => Some (iv_a x) end.

(** interval_set.rs:137-150: the inner merge loop.  [cur] is [intervals[i-1]], [rest] is
    [intervals[i..]] at the moment after [i += 1].  After [intervals.remove(i)] the element that
    slides into slot [i] becomes the new [intervals[i-1]] of the next iteration (because of the
    second [i += 1]) and is not itself compared: this is exactly what the code does. *)
Fixpoint merge_loop (bigger cur : interval) (rest : list interval) : list interval :=
  match rest with
  | [] => [cur]
  | next :: rest' =>
      if negb (adjacent bigger next) && disjoint bigger next then cur :: rest
      else
        let cur' := iv_union bigger next in
        match rest' with
        | [] => [cur']
        | n2 :: rest'' => cur' :: merge_loop bigger n2 rest''
        end
  end.

(** interval_set.rs:125-161: the outer loop of add_interval on [intervals[i..]]. *)
Fixpoint add_loop (added : interval) (l : list interval) : list interval :=
  match l with
  | [] => [added]
  | r :: tl =>
      if iv_eqb r added then l
      else if adjacent added r || negb (disjoint added r) then
        let bigger := iv_union added r in merge_loop bigger bigger tl
      else if starts_before_disjoint added r then added :: l
      else r :: add_loop added tl
  end.

(** interval_set.rs:120-162  add_interval on the interval vector. *)
Definition add_interval_l (added : interval) (l : list interval) : list interval :=
  if iv_length added <? 0 then l else add_loop added l.

(** interval_set.rs:120-162  add_interval (does not look at read_only). *)
Definition add_interval (s : interval_set) (added : interval) : interval_set :=
  IS (add_interval_l added (intervals s)) (read_only s).

(** interval_set.rs:116-118 *)
Definition add_range (s : interval_set) (l h : Z) : interval_set := add_interval s (Iv l h).

(** interval_set.rs:112-114 *)
Definition add_one (s : interval_set) (v : Z) : interval_set := add_range s v v.

(** interval_set.rs:164-168 *)
Definition add_set (s o : interval_set) : interval_set :=
  fold_left add_interval (intervals o) s.

(** interval_set.rs:170-222  substract.  The vector prefix [intervals[..result_i]] is final, so the
    loop is a function of the two suffixes [intervals[result_i..]] and [right[right_i..]]. *)
Fixpoint sub_loop (right : list interval) : list interval -> list interval :=
  fix go (res : list interval) : list interval :=
    match res with
    | [] => []
    | r :: res' =>
        match right with
        | [] => res
        | q :: right' =>
            if iv_b q <? iv_a r then sub_loop right' res
            else if iv_a q >? iv_b r then r :: go res'
            else
              match (if iv_a q >? iv_a r then Some (Iv (iv_a r) (iv_a q - 1)) else None),
                    (if iv_b q <? iv_b r then Some (Iv (iv_b q + 1) (iv_b r)) else None) with
              | Some before, Some after => before :: sub_loop right' (after :: res')
              | Some before, None => before :: go res'
              | None, Some after => sub_loop right' (after :: res')
              | None, None => go res'
              end
        end
    end.

(** interval_set.rs:170  substract (keeps read_only, which it does not look at). *)
Definition substract (s right : interval_set) : interval_set :=
  IS (sub_loop (intervals right) (intervals s)) (read_only s).

(** interval_set.rs:224-229 *)
Definition complement (s : interval_set) (start stop : Z) : interval_set :=
  substract (add_range is_new start stop) s.

(** interval_set.rs:233-241: comparator passed to [binary_search_by]. *)
Definition bs_cmp (item : Z) (x : interval) : comparison :=
  if item <? iv_a x then Gt else if item >? iv_b x then Lt else Eq.

(** Rust core [slice::binary_search_by] (branch-free variant: rustc <= 1.51 and >= 1.82): narrow
    [base,base+size) to one element, then test it.  [fuel >= size] always suffices. *)
Fixpoint bs_base (fuel : nat) (item : Z) (l : list interval) (base size : nat) : bool :=
  match fuel with
  | O => false
  | S f =>
      if Nat.leb size 1 then
        match nth_error l base with
        | Some x => match bs_cmp item x with Eq => true | _ => false end
        | None => false
        end
      else
        let half := Nat.div2 size in
        let mid := (base + half)%nat in
        let base' := match nth_error l mid with
                     | Some x => match bs_cmp item x with Gt => base | _ => mid end
                     | None => base end in
        bs_base f item l base' (size - half)
  end.

(** Rust core [slice::binary_search_by] (left/right variant, rustc 1.52 - 1.81). *)
Fixpoint bs_lr (fuel : nat) (item : Z) (l : list interval) (left right : nat) : bool :=
  match fuel with
  | O => false
  | S f =>
      if Nat.ltb left right then
        let mid := (left + Nat.div2 (right - left))%nat in
        match nth_error l mid with
        | Some x => match bs_cmp item x with
                    | Eq => true
                    | Lt => bs_lr f item l (S mid) right
                    | Gt => bs_lr f item l left mid
                    end
        | None => false
        end
      else false
  end.

(** interval_set.rs:231-243  contains = binary search succeeded.  Two library variants. *)
Definition contains (s : interval_set) (item : Z) : bool :=
  let l := intervals s in bs_base (S (length l)) item l 0 (length l).
Definition contains_lr (s : interval_set) (item : Z) : bool :=
  let l := intervals s in bs_lr (S (length l)) item l 0 (length l).

(** interval_set.rs:245-249 *)
Definition is_length (s : interval_set) : Z :=
  fold_left (fun acc it => acc + iv_b it - iv_a it + 1) (intervals s) 0.

(** Vec index assignment / removal used by remove_one. *)
Fixpoint vec_set {A} (i : nat) (x : A) (l : list A) : list A :=
  match l, i with
  | [], _ => []
  | _ :: tl, O => x :: tl
  | h :: tl, S i' => h :: vec_set i' x tl
  end.
Fixpoint vec_remove {A} (i : nat) (l : list A) : list A :=
  match l, i with
  | [], _ => []
  | _ :: tl, O => tl
  | h :: tl, S i' => h :: vec_remove i' tl
  end.

(** interval_set.rs:258-284: the [for i in 0..len] loop; [n] iterations left, [None] = index panic.
    Note there is no [break] after the split case. *)
Fixpoint remove_loop (n i : nat) (el : Z) (l : list interval) : option (list interval) :=
  match n with
  | O => Some l
  | S n' =>
      match nth_error l i with
      | None => None
      | Some int =>
          if el <? iv_a int then Some l
          else if (el =? iv_a int) && (el =? iv_b int) then Some (vec_remove i l)
          else if el =? iv_a int then Some (vec_set i (Iv (iv_a int + 1) (iv_b int)) l)
          else if el =? iv_b int then Some (vec_set i (Iv (iv_a int) (iv_b int - 1)) l)
          else if (el >? iv_a int) && (el <? iv_b int) then
            let l' := vec_set i (Iv (iv_a int) (el - 1)) l in
            remove_loop n' (S i) el (add_interval_l (Iv (el + 1) (iv_b int)) l')
          else remove_loop n' (S i) el l
      end
  end.

(** interval_set.rs:253-285  remove_one; [None] = panic. *)
Definition remove_one (s : interval_set) (el : Z) : option interval_set :=
  if read_only s then None
  else match remove_loop (length (intervals s)) 0 el (intervals s) with
       | None => None
       | Some l => Some (IS l (read_only s))
       end.

(** token.rs constants: TOKEN_EOF = -1, TOKEN_EPSILON = -2. *)
Definition TOKEN_EOF : Z := -1.
Definition TOKEN_EPSILON : Z := -2.

Section TokenString.
  (** [vocabulary.get_display_name] (modelled separately in VocabularyModel.v). *)
  Variable display_name : Z -> text.

  (** interval_set.rs:340-348 *)
  Definition element_name (a : Z) : text :=
    if a =? TOKEN_EOF then lit "<EOF>"
    else if a =? TOKEN_EPSILON then lit "<EPSILON>"
    else display_name a.

  (** interval_set.rs:321-326: [for i in int.a..(int.b+1)] with a separator before all but the first;
      [n] elements left, starting at [i]. *)
  Fixpoint elements_from (n : nat) (first i : Z) : text :=
    match n with
    | O => []
    | S n' => ((if i >? first then lit ", " else []) ++ element_name i ++ elements_from n' first (i + 1))
    end.

  (** interval_set.rs:317-331 *)
  Fixpoint intervals_string (l : list interval) : text :=
    match l with
    | [] => []
    | int :: rest =>
        ((if (iv_a int =? iv_b int)%Z then element_name (iv_a int)
          else elements_from (Z.to_nat (iv_b int + 1 - iv_a int)) (iv_a int) (iv_a int))
         ++ (match rest with [] => [] | _ => lit ", " end)
         ++ intervals_string rest)
    end.

  (** interval_set.rs:308-338 *)
  Definition to_token_string (s : interval_set) : text :=
    match intervals s with
    | [] => lit "{}"
    | _ =>
        ((if is_length s >? 1 then lit "{" else [])
         ++ intervals_string (intervals s)
         ++ (if is_length s >? 1 then lit "}" else []))
    end.
End TokenString.

(** A history of public mutating insertions. *)
Inductive ins_op := InsOne (v : Z) | InsRange (l h : Z) | InsSet (s : interval_set).
Definition ins_step (s : interval_set) (o : ins_op) : interval_set :=
  match o with
  | InsOne v => add_one s v
  | InsRange l h => add_range s l h
  | InsSet o => add_set s o
  end.
