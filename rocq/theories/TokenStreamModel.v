(** Model of src/token_stream.rs (UnbufferedTokenStream, TokenIter) and src/common_token_stream.rs
    (CommonTokenStream).  No proofs here. *)
From Coq Require Import ZArith List Bool.
From Verif Require Import CharStreamModel.
Import ListNotations.
Open Scope Z_scope.

(** token.rs:15-26 *)
Definition TOKEN_INVALID_TYPE : Z := 0.
Definition TOKEN_EOF : Z := -1.
Definition TOKEN_DEFAULT_CHANNEL : Z := 0.

(** The fields of a token (token.rs GenericToken) that streams and parsers look at; the text is a
    list of characters, token_index is assigned by the stream. *)
Record tok := Tok { t_type : Z; t_channel : Z; t_text : list Z; t_index : Z; t_line : Z; t_column : Z }.
Definition set_index (t : tok) (i : Z) : tok := Tok (t_type t) (t_channel t) (t_text t) i (t_line t) (t_column t).

(** Result of an operation: value, panic, or (only for the channel search of CommonTokenStream) no
    answer within the given fuel. *)
Inductive out (A : Type) := Done (a : A) | Crash | OutOfFuel.
Arguments Done {A} a. Arguments Crash {A}. Arguments OutOfFuel {A}.
Definition obind {A B} (r : out A) (f : A -> out B) : out B :=
  match r with Done a => f a | Crash => Crash | OutOfFuel => OutOfFuel end.
Notation "'do' x <- a ; b" := (obind a (fun x => b)) (at level 200, x pattern, a at level 100, b at level 200).

(** token_stream.rs:73-80.  The token source is modelled by the section variable [src] (the n-th
    call of next_token returns [src n]) and the number [pulled] of calls made so far. *)
Record uts := Uts { tokens : list tok; cur : Z; markers : Z; p : Z; pulled : nat }.

Section Source.
  Variable src : nat -> tok.

  (** token_stream.rs:113-121 *)
  Definition new_unbuffered : uts := Uts [] 0 0 0 0.

  (** token_stream.rs:130-132 *)
  Definition get_buffer_start_index (s : uts) : Z := cur s - p s.

  (** token_stream.rs:136-140 test: the buffer is non-empty and ends with EOF *)
  Definition ends_with_eof (s : uts) : bool :=
    match rev (tokens s) with [] => false | t :: _ => t_type t =? TOKEN_EOF end.

  (** token_stream.rs:134-149; returns the number of tokens fetched. *)
  Fixpoint fill_loop (n : nat) (i : Z) (s : uts) : uts * Z :=
    match n with
    | O => (s, i)
    | S n' =>
        if ends_with_eof s then (s, i)
        else
          let t := set_index (src (pulled s)) (get_buffer_start_index s + zlen (tokens s)) in
          fill_loop n' (i + 1) (Uts (tokens s ++ [t]) (cur s) (markers s) (p s) (S (pulled s)))
    end.
  Definition fill (s : uts) (need : Z) : uts * Z := fill_loop (Z.to_nat need) 0 s.

  (** token_stream.rs:123-128 *)
  Definition sync (s : uts) (want : Z) : uts :=
    let need := (p s + want - 1) - zlen (tokens s) + 1 in
    if need >? 0 then fst (fill s need) else s.

  (** token_stream.rs:156-164; [self.p as usize - 1] underflows for p = 0 *)
  Definition lt (s : uts) (i : Z) : out (uts * option tok) :=
    if i =? -1 then
      if p s <=? 0 then Crash else Done (s, zget (tokens s) (p s - 1))
    else
      let s := sync s i in Done (s, zget (tokens s) (p s + i - 1)).

  (** token_stream.rs:224-228 *)
  Definition tla (s : uts) (i : Z) : out (uts * Z) :=
    do r <- lt s i; let '(s, t) := r in
    Done (s, match t with Some t => t_type t | None => TOKEN_INVALID_TYPE end).

  (** token_stream.rs:167-169 *)
  Definition get (s : uts) (index : Z) : out tok :=
    match zget (tokens s) (index - get_buffer_start_index s) with Some t => Done t | None => Crash end.

  (** token_stream.rs:206-221 *)
  Definition tconsume (s : uts) : out uts :=
    do r <- tla s 1; let '(s, ty) := r in
    if ty =? TOKEN_EOF then Crash
    else
      let s := if (p s =? zlen (tokens s)) && (markers s =? 0)
               then Uts [] (cur s) (markers s) (-1) (pulled s) else s in
      let s := Uts (tokens s) (cur s + 1) (markers s) (p s + 1) (pulled s) in
      Done (sync s 1).

  (** token_stream.rs:231-234 *)
  Definition tmark (s : uts) : uts * Z :=
    let m := markers s + 1 in (Uts (tokens s) (cur s) m (p s) (pulled s), - m).

  (** token_stream.rs:106-110 *)
  Definition new_buffered : uts := fst (tmark new_unbuffered).

  (** token_stream.rs:237-264; drain(0..p) panics when p exceeds the length *)
  Definition trelease (s : uts) (marker : Z) : out uts :=
    if negb (marker =? - markers s) then Crash
    else
      let m := markers s - 1 in
      if (m =? 0) && (p s >? 0) then
        if p s >? zlen (tokens s) then Crash
        else Done (Uts (skipn (Z.to_nat (p s)) (tokens s)) (cur s) m 0 (pulled s))
      else Done (Uts (tokens s) (cur s) m (p s) (pulled s)).

  (** token_stream.rs:290-292 *)
  Definition tsize (s : uts) : Z := zlen (tokens s).

  (** token_stream.rs:272-287 *)
  Definition tseek (s : uts) (index : Z) : out uts :=
    if cur s =? index then Done s
    else
      let '(s, index) :=
        if index >? cur s then
          let s := sync s (index - cur s) in
          (s, Z.min index (get_buffer_start_index s + tsize s + 1))
        else (s, index) in
      let i := index - get_buffer_start_index s in
      if (i <? 0) || (i >=? zlen (tokens s)) then Crash
      else Done (Uts (tokens s) index (markers s) i (pulled s)).

  (** token_stream.rs:192-198: concatenation up to EOF *)
  Fixpoint text_until_eof (ts : list tok) : list Z :=
    match ts with
    | [] => []
    | t :: r => if t_type t =? TOKEN_EOF then [] else t_text t ++ text_until_eof r
    end.

  (** token_stream.rs:175-201; the loop indexes tokens a..=b, which are all in the buffer after the
      window check, except that an empty range (stop < start) reads nothing. *)
  Definition get_text_from_interval (s : uts) (start stop : Z) : out (list Z) :=
    let b0 := get_buffer_start_index s in
    let b1 := b0 + zlen (tokens s) - 1 in
    if (start <? b0) || (stop >? b1) then Crash
    else Done (text_until_eof (sub_list (tokens s) (start - b0) (stop - b0 + 1))).

  (** token_stream.rs:32-34 *)
  Definition get_all_text (s : uts) : out (list Z) := get_text_from_interval s 0 (tsize s - 1).

  (** token_stream.rs:58-69  TokenIter::next; the boolean is the "finished" field. *)
  Definition titer_next (s : uts) (fin : bool) : out (uts * bool * option tok) :=
    if fin then Done (s, fin, None)
    else
      do r <- lt s 1; let '(s, t) := r in
      match t with
      | None => Crash
      | Some t =>
          if t_type t =? TOKEN_EOF then Done (s, true, Some t)
          else do s <- tconsume s; Done (s, false, Some t)
      end.

  Fixpoint titer_take (n : nat) (s : uts) (fin : bool) : out (uts * bool * list (option tok)) :=
    match n with
    | O => Done (s, fin, [])
    | S n' => do r <- titer_next s fin; let '(s, fin, x) := r in
              do r <- titer_take n' s fin; let '(s, fin, xs) := r in
              Done (s, fin, x :: xs)
    end.

  (** int_stream.rs:77-84  IterWrapper::next over a token stream. *)
  Definition iwrap_next (s : uts) : out (uts * option Z) :=
    do r <- tla s 1; let '(s, x) := r in
    do s <- tconsume s;
    Done (s, if x =? TOKEN_EOF then None else Some x).

  (** Histories. *)
  Inductive top := TLt (k : Z) | TConsume | TMark | TRelease (m : Z) | TSeek (i : Z).
  Definition tstep (s : uts) (o : top) : out uts :=
    match o with
    | TLt k => do r <- lt s k; Done (fst r)
    | TConsume => tconsume s
    | TMark => Done (fst (tmark s))
    | TRelease m => trelease s m
    | TSeek i => tseek s i
    end.
  Fixpoint trun (s : uts) (ops : list top) : out uts :=
    match ops with [] => Done s | o :: r => do s' <- tstep s o; trun s' r end.

  (** ** CommonTokenStream (common_token_stream.rs:13-16); [channel] is fixed for the stream. *)
  Variable channel : Z.
  (** Fuel for the unbounded channel search loops. *)
  Variable fuel : nat.

  (** common_token_stream.rs:139-147 *)
  Definition csync (s : uts) (i : Z) : uts * bool :=
    let need := i - tsize s + 1 in
    if need >? 0 then let '(s, fetched) := fill s need in (s, fetched >=? need) else (s, true).

  (** common_token_stream.rs:104-111 *)
  Definition with_channel : uts := fst (csync new_buffered 0).

  (** common_token_stream.rs:168-179 *)
  Fixpoint chan_loop (f : nat) (s : uts) (i direction : Z) : out (uts * Z) :=
    match zget (tokens s) i with
    | None => Crash
    | Some t =>
        if t_channel t =? channel then Done (s, i)
        else if (t_type t =? TOKEN_EOF) || (i <? 0) then Done (s, i)
        else match f with
             | O => OutOfFuel
             | S f' => chan_loop f' (fst (csync s (i + direction))) (i + direction) direction
             end
    end.

  (** common_token_stream.rs:162-180 *)
  Definition next_token_on_channel (s : uts) (i direction : Z) : out (uts * Z) :=
    let s := fst (csync s i) in
    if i >=? tsize s then Done (s, tsize s - 1)
    else chan_loop fuel s i direction.

  (** common_token_stream.rs:22-29 *)
  Definition cconsume (s : uts) : out uts :=
    do s <- tconsume s;
    do r <- next_token_on_channel s (p s) 1; let '(s, next) := r in
    tseek s next.

  (** common_token_stream.rs:117-123; [n] iterations left *)
  Fixpoint lt_loop (n : nat) (s : uts) (i : Z) : out (uts * Z) :=
    match n with
    | O => Done (s, i)
    | S n' =>
        let '(s, ok) := csync s (i + 1) in
        if ok then do r <- next_token_on_channel s (i + 1) 1; let '(s, i) := r in lt_loop n' s i
        else lt_loop n' s i
    end.

  (** common_token_stream.rs:113-126 *)
  Definition lt_inner (s : uts) (k : Z) : out (uts * option tok) :=
    do r <- lt_loop (Z.to_nat (k - 1)) s (p s); let '(s, i) := r in
    Done (s, zget (tokens s) i).

  (** common_token_stream.rs:215-219 *)
  Fixpoint lb_loop (n : nat) (s : uts) (i : Z) : out (uts * Z) :=
    match n with
    | O => Done (s, i)
    | S n' =>
        if i >? 0 then
          do r <- next_token_on_channel s (i - 1) (-1); let '(s, i) := r in lb_loop n' s i
        else Done (s, i)
    end.

  (** common_token_stream.rs:204-225 *)
  Definition lb (s : uts) (k : Z) : out (uts * option tok) :=
    if (k =? 0) || (p s - k <? 0) then Done (s, None)
    else
      do r <- lb_loop (Z.to_nat k) s (p s); let '(s, i) := r in
      if i <? 0 then Done (s, None) else Done (s, zget (tokens s) i).

  (** common_token_stream.rs:70-81 *)
  Definition clt (s : uts) (k : Z) : out (uts * option tok) :=
    if k =? 1 then Done (s, zget (tokens s) (p s))
    else if k =? 0 then Crash
    else if k <? 0 then lb s (- k)
    else lt_inner s k.

  (** common_token_stream.rs:32-36 *)
  Definition cla (s : uts) (k : Z) : out (uts * Z) :=
    do r <- clt s k; let '(s, t) := r in
    Done (s, match t with Some t => t_type t | None => TOKEN_INVALID_TYPE end).

  (** common_token_stream.rs:52-54, 129-132 *)
  Definition cseek (s : uts) (i : Z) : out uts := tseek s i.
  Definition creset (s : uts) : uts := Uts (tokens s) 0 (markers s) 0 (pulled s).

  (** int_stream.rs:77-84 over CommonTokenStream *)
  Definition ciwrap_next (s : uts) : out (uts * option Z) :=
    do r <- cla s 1; let '(s, x) := r in
    do s <- cconsume s;
    Done (s, if x =? TOKEN_EOF then None else Some x).

  (** Histories; mark and release (common_token_stream.rs:39-44) are no-ops. *)
  Inductive cop := CLt (k : Z) | CConsume | CMark | CRelease (m : Z) | CSeek (i : Z) | CReset.
  Definition cstep (s : uts) (o : cop) : out uts :=
    match o with
    | CLt k => do r <- clt s k; Done (fst r)
    | CConsume => cconsume s
    | CMark => Done s
    | CRelease _ => Done s
    | CSeek i => cseek s i
    | CReset => Done (creset s)
    end.
  Fixpoint crun (s : uts) (ops : list cop) : out uts :=
    match ops with [] => Done s | o :: r => do s' <- cstep s o; crun s' r end.
End Source.
