(** Model of src/char_stream.rs (InputData for slices and for str) and src/input_stream.rs
    (InputStream), plus the IntStream iterator of src/int_stream.rs.  No proofs here. *)
From Coq Require Import ZArith List Bool.
Import ListNotations.
Open Scope Z_scope.

(** int_stream.rs:4 *)
Definition EOF : Z := -1.

(** Result of an operation that may panic. *)
Inductive res (A : Type) := Ok (a : A) | Panic.
Arguments Ok {A} a. Arguments Panic {A}.

Definition bind {A B} (r : res A) (f : A -> res B) : res B :=
  match r with Ok a => f a | Panic => Panic end.

(** [slice.get(i as usize)] / [slice[i]] with an isize index: a negative index wraps to a huge usize
    and is out of range. *)
Definition zget {A} (l : list A) (i : Z) : option A :=
  if i <? 0 then None else nth_error l (Z.to_nat i).

(** [l[a..b]] for 0 <= a <= b <= len. *)
Definition sub_list {A} (l : list A) (a b : Z) : list A :=
  firstn (Z.to_nat (b - a)) (skipn (Z.to_nat a) l).

Definition zlen {A} (l : list A) : Z := Z.of_nat (length l).

(** The part of trait InputData (char_stream.rs:20-43) that InputStream uses.  Both instances store a
    vector of integers: code units for [[T]], UTF-8 bytes for [str]. *)
Record input_data := {
  d_offset : list Z -> Z -> Z -> option Z;
  d_item : list Z -> Z -> option Z;
  d_slice : list Z -> Z -> Z -> res (list Z);      (* &data[a..b] *)
  d_slice_from : list Z -> Z -> res (list Z)       (* &data[a..]  *)
}.

(** ** Slices *)

(** char_stream.rs:57-67 *)
Definition slice_offset (l : list Z) (index item_offset : Z) : option Z :=
  let new_index := index + item_offset in
  if new_index <? 0 then None
  else if new_index >? zlen l then None
  else Some new_index.

(** char_stream.rs:70-72 *)
Definition slice_item (l : list Z) (index : Z) : option Z := zget l index.

(** Index<Range<usize>> for [T]: panics unless a <= b <= len. *)
Definition slice_range (l : list Z) (a b : Z) : res (list Z) :=
  if (0 <=? a) && (a <=? b) && (b <=? zlen l) then Ok (sub_list l a b) else Panic.

Definition slice_data : input_data :=
  {| d_offset := slice_offset; d_item := slice_item;
     d_slice := slice_range; d_slice_from := fun l a => slice_range l a (zlen l) |}.

(** ** UTF-8 strings, as vectors of bytes *)

(** std [str::is_char_boundary]: index 0 and len are boundaries; otherwise the byte at the index is
    not a continuation byte ([b as i8 >= -0x40], i.e. b < 128 or b >= 192). *)
Definition is_char_boundary (l : list Z) (i : Z) : bool :=
  if i =? 0 then true
  else if i =? zlen l then true
  else match zget l i with
       | None => false
       | Some b => (b <? 128) || (192 <=? b)
       end.

(** std [core::str::next_code_point] on the bytes at the cursor (bit operations written as
    arithmetic); [None] on an empty slice or a truncated sequence (impossible in valid UTF-8). *)
Definition next_code_point (l : list Z) : option Z :=
  match l with
  | [] => None
  | x :: t1 =>
      if x <? 128 then Some x
      else match t1 with
           | [] => None
           | y :: t2 =>
               if x <? 224 then Some ((x mod 32) * 64 + y mod 64)
               else match t2 with
                    | [] => None
                    | z :: t3 =>
                        if x <? 240 then Some ((x mod 32) * 4096 + (y mod 64) * 64 + z mod 64)
                        else match t3 with
                             | [] => None
                             | w :: _ => Some ((x mod 8) * 262144 + (y mod 64) * 4096 + (z mod 64) * 64 + w mod 64)
                             end
                    end
           end
  end.

Inductive off_res := OffNone | OffSome (i : Z) | OffFuel.

(** char_stream.rs:126-135, one [while] iteration per fuel unit. *)
Fixpoint str_offset_loop (fuel : nat) (l : list Z) (index item_offset direction : Z) : off_res :=
  match fuel with
  | O => OffFuel
  | S f =>
      let index := index + direction in
      if (index <? 0) || (index >? zlen l) then OffNone
      else
        let item_offset := if is_char_boundary l index then item_offset - direction else item_offset in
        if item_offset =? 0 then OffSome index
        else str_offset_loop f l index item_offset direction
  end.

(** char_stream.rs:120-138.  The loop leaves [0..len] after at most len+1 iterations, so the fuel
    below is never exhausted (lemma str_offset_loop_no_fuel). *)
Definition str_offset (l : list Z) (index item_offset : Z) : option Z :=
  if item_offset =? 0 then Some index
  else match str_offset_loop (S (S (length l))) l index item_offset (Z.sgn item_offset) with
       | OffSome i => Some i
       | OffNone => None
       | OffFuel => None
       end.

(** char_stream.rs:141-145: [self.get(index as usize..).and_then(|it| it.chars().next())]. *)
Definition str_item (l : list Z) (index : Z) : option Z :=
  if (0 <=? index) && is_char_boundary l index then next_code_point (skipn (Z.to_nat index) l) else None.

(** Index<Range<usize>> for str: panics unless both ends are boundaries and a <= b. *)
Definition str_range (l : list Z) (a b : Z) : res (list Z) :=
  if (0 <=? a) && (a <=? b) && (b <=? zlen l) && is_char_boundary l a && is_char_boundary l b
  then Ok (sub_list l a b) else Panic.

Definition str_data : input_data :=
  {| d_offset := str_offset; d_item := str_item;
     d_slice := str_range; d_slice_from := fun l a => str_range l a (zlen l) |}.

(** ** InputStream (input_stream.rs:18-22; the name is not modelled) *)
Record istream := IStream { data_raw : list Z; is_index : Z }.

(** input_stream.rs:135-144 / 106-112 *)
Definition stream_new (l : list Z) : istream := IStream l 0.

Section Stream.
  Variable D : input_data.

  (** input_stream.rs:162-170 *)
  Definition consume (s : istream) : res istream :=
    match d_offset D (data_raw s) (is_index s) 1 with
    | Some index => Ok (IStream (data_raw s) index)
    | None => Panic
    end.

  (** input_stream.rs:173-191 *)
  Definition la (s : istream) (offset : Z) : res Z :=
    if offset =? 1 then
      Ok (match d_item D (data_raw s) (is_index s) with Some c => c | None => EOF end)
    else if offset =? 0 then Panic
    else
      let offset := if offset <? 0 then offset + 1 else offset in
      Ok (match d_offset D (data_raw s) (is_index s) (offset - 1) with
          | None => EOF
          | Some index => match d_item D (data_raw s) index with Some c => c | None => EOF end
          end).

  (** input_stream.rs:194-196 *)
  Definition mark (s : istream) : istream * Z := (s, -1).
  (** input_stream.rs:199 *)
  Definition release (s : istream) (_ : Z) : istream := s.
  (** input_stream.rs:207-209 *)
  Definition seek (s : istream) (i : Z) : istream := IStream (data_raw s) i.
  (** input_stream.rs:212-214 *)
  Definition size (s : istream) : Z := zlen (data_raw s).
  (** input_stream.rs:152-154 *)
  Definition reset (s : istream) : istream := IStream (data_raw s) 0.

  (** input_stream.rs:119-132 (get_text_inner) and 93-103 (get_text_owned, same code). *)
  Definition get_text (s : istream) (start stop : Z) : res (list Z) :=
    let stop := match d_offset D (data_raw s) stop 1 with Some x => x | None => stop end in
    if stop <? zlen (data_raw s) then d_slice D (data_raw s) start stop
    else d_slice_from D (data_raw s) start.

  (** int_stream.rs:77-84  IterWrapper::next over this stream: [la(1)], then [consume()] in any case. *)
  Definition iter_next (s : istream) : res (istream * option Z) :=
    bind (la s 1) (fun r =>
    bind (consume s) (fun s' =>
    Ok (s', if r =? EOF then None else Some r))).

  (** Calling next() n times, collecting the yielded items. *)
  Fixpoint iter_take (n : nat) (s : istream) : res (istream * list (option Z)) :=
    match n with
    | O => Ok (s, [])
    | S n' => bind (iter_next s) (fun '(s1, x) =>
              bind (iter_take n' s1) (fun '(s2, xs) => Ok (s2, x :: xs)))
    end.

  (** A history of operations on the stream. *)
  Inductive stream_op := OpConsume | OpLa (k : Z) | OpMark | OpRelease (m : Z) | OpSeek (i : Z) | OpReset.
  Definition step (s : istream) (o : stream_op) : res istream :=
    match o with
    | OpConsume => consume s
    | OpLa k => bind (la s k) (fun _ => Ok s)
    | OpMark => Ok (fst (mark s))
    | OpRelease m => Ok (release s m)
    | OpSeek i => Ok (seek s i)
    | OpReset => Ok (reset s)
    end.
  Fixpoint run (s : istream) (ops : list stream_op) : res istream :=
    match ops with [] => Ok s | o :: r => bind (step s o) (fun s' => run s' r) end.
End Stream.
