(** Property theorems C11-C20, C71, C72: token streams. *)
From Coq Require Import ZArith List Bool Lia.
From Coq Require Import ZifyBool ZifyNat.
From Verif Require Import CharStreamModel TokenStreamModel TokenStreamSpec TokenStreamProofs CommonTokenStreamProofs.
Import ListNotations.
Open Scope Z_scope.

Local Ltac dif := match goal with |- context [if ?c then _ else _] => destruct c eqn:? end.

(** Sample tokens used by the examples: type, channel, text. *)
Definition tk (ty ch : Z) (txt : list Z) : tok := Tok ty ch txt 0 1 0.
Definition eofk : tok := tk TOKEN_EOF 0 [].

(** C11.  After any history of operations that did not panic, the index is a natural number c, every
    lt(k) with k >= 1 succeeds without moving the stream and is source token c+k-1 (with its source
    position as token_index) as long as EOF was not passed, None afterwards; lt(1) is never None;
    consume moves to c+1 and panics exactly at EOF. *)
Theorem C11_in_order : forall src ops s, trun src new_unbuffered ops = Done s ->
  exists c, cur s = Z.of_nat c /\
    (forall k, 1 <= k -> exists s' r, lt src s k = Done (s', r) /\ cur s' = cur s /\
        (no_eof_before src (c + Z.to_nat (k - 1)) -> r = Some (tok_at src (c + Z.to_nat (k - 1)))) /\
        (~ no_eof_before src (c + Z.to_nat (k - 1)) -> r = None)) /\
    no_eof_before src c /\
    (is_eof src c -> tconsume src s = Crash) /\
    (~ is_eof src c -> exists s', tconsume src s = Done s' /\ cur s' = Z.of_nat (S c)).
Proof.
  intros src ops s H. destruct (reach_rep _ _ _ H) as (b & n & R).
  pose proof (rep_cur _ _ _ _ R) as Hc. pose proof (r_p _ _ _ _ R) as Hp.
  exists (Z.to_nat (cur s)). split; [lia|]. split; [|split; [|]].
  - intros k Hk. destruct (lt_spec src b n s k (Z.to_nat (cur s)) R Hk ltac:(lia))
      as (s' & n' & r & E & R' & Hn & Hc' & Hp' & Hm & Ha & Hb & _).
    exists s', r. auto.
  - apply (rep_noeof_cur _ _ _ _ _ R). lia.
  - destruct (consume_spec src b n s (Z.to_nat (cur s)) R ltac:(lia)) as [H1 H2]. split; [auto|].
    intros He. destruct (H2 He) as (s' & n' & E & _ & _ & Hc' & _). exists s'. split; [auto|lia].
Qed.
Print Assumptions C11_in_order.

(** A token that is still retrievable by get(i) is source token i. *)
Theorem C11_get : forall src ops s i t, trun src new_unbuffered ops = Done s ->
  get s i = Done t -> 0 <= i /\ t = tok_at src (Z.to_nat i).
Proof.
  intros src ops s i t H Hg. destruct (reach_rep _ _ _ H) as (b & n & R).
  rewrite (get_spec _ _ _ _ _ R) in Hg. destruct (_ && _) eqn:E; [|easy]. inversion Hg. split; [lia|auto].
Qed.
Print Assumptions C11_get.

Example C11_nonvacuous :
  let src := src_of [tk 5 0 [97]; tk 6 0 [98]; tk 7 0 [99]] eofk in
  exists s, trun src new_unbuffered [TMark; TLt 3; TConsume; TConsume; TSeek 1; TRelease (-1); TConsume] = Done s /\
    cur s = 2 /\ (exists s', lt src s 1 = Done (s', Some (Tok 7 0 [99] 2 1 0))) /\
    (exists s', lt src s 2 = Done (s', Some (Tok (-1) 0 [] 3 1 0))).
Proof.
  eexists. vm_compute. split; [reflexivity|]. split; [reflexivity|]. split; eexists; reflexivity.
Qed.

(** C12: lt(-1) is right, every other lt(-k) is not. *)
Theorem C12_lookbehind_refuted :
  exists src ops s, trun src new_unbuffered ops = Done s /\ cur s = 3 /\
    get s 1 = Done (tok_at src 1) /\
    exists s', lt src s (-2) = Done (s', Some (tok_at src 0)) /\ tok_at src 0 <> tok_at src 1.
Proof.
  exists (src_of [tk 5 0 [97]; tk 6 0 [98]; tk 7 0 [99]] eofk), [TConsume; TConsume; TConsume].
  eexists. vm_compute. repeat split. eexists. split; [reflexivity|congruence].
Qed.
Print Assumptions C12_lookbehind_refuted.

(** lt(-1) is the previous token whenever it is still buffered. *)
Theorem C12_lt_minus_one_partial : forall src ops s t, trun src new_unbuffered ops = Done s ->
  get s (cur s - 1) = Done t -> lt src s (-1) = Done (s, Some t).
Proof.
  intros src ops s t H Hg. destruct (reach_rep _ _ _ H) as (b & n & R).
  pose proof (rep_cur _ _ _ _ R) as Hc. pose proof (r_p _ _ _ _ R) as Hp.
  rewrite (get_spec _ _ _ _ _ R) in Hg. destruct (_ && _) eqn:E; [|easy]. inversion Hg.
  unfold lt. change (-1 =? -1) with true. cbv iota. destruct (p s <=? 0) eqn:E1; [lia|].
  rewrite (r_toks _ _ _ _ R), zget_map_seq.
  replace ((0 <=? p s - 1) && (p s - 1 <? Z.of_nat n)) with true by lia. do 3 f_equal. f_equal. lia.
Qed.
Print Assumptions C12_lt_minus_one_partial.

(** The general fact: for k >= 2, lt(-k) is the token k+1 positions back (or None). *)
Theorem C12_off_by_one : forall src ops s k, trun src new_unbuffered ops = Done s -> 2 <= k ->
  exists r, lt src s (- k) = Done (s, r) /\
    (forall t, get s (cur s - k - 1) = Done t -> r = Some t) /\
    (get s (cur s - k - 1) = Crash -> r = None).
Proof.
  intros src ops s k H Hk. destruct (reach_rep _ _ _ H) as (b & n & R).
  pose proof (rep_cur _ _ _ _ R) as Hc. pose proof (r_p _ _ _ _ R) as Hp.
  unfold lt. destruct (- k =? -1) eqn:E; [lia|]. cbv zeta.
  destruct (sync_spec src b n s (- k) R) as (n' & _ & _ & _ & _ & _ & Hs & _). rewrite Hs by lia.
  eexists. split; [reflexivity|]. rewrite (r_toks _ _ _ _ R), zget_map_seq, (get_spec _ _ _ _ _ R).
  split.
  - intros t. destruct ((Z.of_nat b <=? _) && _) eqn:E1; [|easy]. intros Ht; inversion Ht.
    dif; [|lia]. f_equal. f_equal. lia.
  - destruct ((Z.of_nat b <=? _) && _) eqn:E1; [easy|]. intros _.
    dif; [lia|]. auto.
Qed.
Print Assumptions C12_off_by_one.

(** Look-behind before the first token panics instead of reporting absence. *)
Theorem C12_start_panics : forall src, lt src new_unbuffered (-1) = Crash.
Proof. reflexivity. Qed.
Print Assumptions C12_start_panics.

(** C13: on every source, a fresh marked stream cannot seek to index 1. *)
Theorem C13_forward_seek_refuted : forall src, trun src new_unbuffered [TMark; TSeek 1] = Crash.
Proof.
  intros src. cbn. reflexivity.
Qed.
Print Assumptions C13_forward_seek_refuted.

(** Exactly which seeks succeed: the current index, and every index that get() can return. *)
Theorem C13_seek_iff_buffered_partial : forall src ops s i, trun src new_unbuffered ops = Done s ->
  (tseek src s i <> Crash <-> (i = cur s \/ exists t, get s i = Done t)) /\
  (forall s', tseek src s i = Done s' -> cur s' = i /\
     exists s'', lt src s' 1 = Done (s'', Some (tok_at src (Z.to_nat i)))).
Proof.
  intros src ops s i H. destruct (reach_rep _ _ _ H) as (b & n & R).
  pose proof (rep_cur _ _ _ _ R) as Hc. pose proof (r_p _ _ _ _ R) as Hp.
  assert (Hl : forall b n s', rep src b n s' -> exists s'', lt src s' 1 = Done (s'', Some (tok_at src (Z.to_nat (cur s'))))).
  { clear. intros b n s' R. pose proof (rep_cur _ _ _ _ R) as Hc. pose proof (r_p _ _ _ _ R) as Hp.
    destruct (lt_spec src b n s' 1 (Z.to_nat (cur s')) R ltac:(lia) ltac:(lia)) as (s'' & n' & r & E & _ & _ & _ & _ & _ & Ha & _).
    exists s''. rewrite E. do 2 f_equal. replace (Z.to_nat (cur s') + Z.to_nat (1 - 1))%nat with (Z.to_nat (cur s')) in Ha by lia.
    apply Ha. apply (rep_noeof_cur _ _ _ _ _ R). lia. }
  destruct (seek_spec src b n s i R) as [[Hs E]|[(Hs & Hr & E & R')|(Hs & Hr & E)]]; rewrite E.
  - split; [split; [auto|easy]|]. intros s' Hd; inversion Hd; subst. split; [auto|]. eapply Hl; eauto.
  - split.
    + split; [|easy]. intros _. right. exists (tok_at src (Z.to_nat i)). rewrite (get_spec _ _ _ _ _ R).
      dif; [auto|lia].
    + intros s' Hd; inversion Hd; subst. cbn. split; [auto|]. apply (Hl _ _ _ R').
  - split; [|easy]. split; [easy|]. intros [->|(t & Ht)]; [easy|].
    rewrite (get_spec _ _ _ _ _ R) in Ht. destruct (_ && _) eqn:E1; [lia|easy].
Qed.
Print Assumptions C13_seek_iff_buffered_partial.

Example C13_nonvacuous :
  let src := src_of [tk 5 0 [97]; tk 6 0 [98]; tk 7 0 [99]] eofk in
  exists s s', trun src new_unbuffered [TMark; TLt 3] = Done s /\ tseek src s 2 = Done s' /\ tseek src s 3 = Crash.
Proof. eexists _, _. vm_compute. repeat split. Qed.

(** C14.  While a marker is held, seeking back to the marked index works and restores lookahead. *)
Theorem C14_mark_pins : forall src ops0 s ops s1 m s2,
  trun src new_unbuffered ops0 = Done s -> tmark s = (s1, m) -> m < 0 ->
  keeps src (- m) s1 ops -> trun src s1 ops = Done s2 ->
  exists s3, tseek src s2 (cur s) = Done s3 /\ cur s3 = cur s /\
    (forall k, 1 <= k -> exists s' s3' r, lt src s k = Done (s', r) /\ lt src s3 k = Done (s3', r)) /\
    (forall i t, cur s <= i -> get s i = Done t -> get s2 i = Done t).
Proof.
  intros src ops0 s ops s1 m s2 H0 Hm Hneg K H. destruct (reach_snug _ _ _ H0) as (b & n & R & Hsn).
  inversion Hm; subst s1 m; clear Hm.
  pose proof (mark_spec _ _ _ _ R) as R1. cbn [fst tmark] in R1.
  destruct (keeps_base src ops b n _ s2 (- - (markers s + 1)) R1 ltac:(lia) ltac:(cbn; lia) K H) as (n2 & R2 & Hn).
  pose proof (rep_cur _ _ _ _ R) as Hc. pose proof (r_p _ _ _ _ R) as Hp.
  pose proof (rep_cur _ _ _ _ R2) as Hc2. pose proof (r_p _ _ _ _ R2) as Hp2.
  assert (Hget : forall i t, cur s <= i -> get s i = Done t -> get s2 i = Done t).
  { intros i t Hi. rewrite (get_spec _ _ _ _ _ R), (get_spec _ _ _ _ _ R2).
    destruct ((Z.of_nat b <=? i) && (i <? Z.of_nat (b + n))) eqn:E; [|easy].
    intros Hd; inversion Hd. dif; [auto|lia]. }
  destruct (seek_spec src b n2 s2 (cur s) R2) as [[Hs E]|[(Hs & Hr & E & R')|(Hs & Hr & E)]]; rewrite E.
  - exists s2. split; [auto|]. split; [auto|]. split; [|auto].
    intros k Hk. apply (lt_same src b n s b n2 s2 k R R2 Hs Hk).
  - eexists. split; [reflexivity|]. split; [auto|]. split; [|auto].
    intros k Hk. eapply (lt_same src b n s b n2 _ k R R'); auto.
  - exfalso. apply Hr. assert (cur s2 <> cur s) by congruence. lia.
Qed.
Print Assumptions C14_mark_pins.

(** Releasing the last marker drops exactly the tokens before the current position. *)
Theorem C14_last_release : forall src ops s, trun src new_unbuffered ops = Done s -> markers s = 1 ->
  exists s', trelease s (-1) = Done s' /\ cur s' = cur s /\
    (forall k, 1 <= k -> exists s1 s1' r, lt src s k = Done (s1, r) /\ lt src s' k = Done (s1', r)) /\
    (forall i, i < cur s -> get s' i = Crash) /\
    (forall i, cur s <= i -> get s' i = get s i).
Proof.
  intros src ops s H Hm. destruct (reach_rep _ _ _ H) as (b & n & R).
  pose proof (rep_cur _ _ _ _ R) as Hc. pose proof (r_p _ _ _ _ R) as Hp.
  destruct (trelease s (-1)) as [s'| |] eqn:E.
  - destruct (release_spec _ _ _ _ _ _ R E) as (b' & n' & R' & Hc' & Hm' & _ & Hsum & Hb).
    rewrite Hm in Hb. cbn in Hb. exists s'. split; [auto|]. split; [auto|].
    split; [intros k Hk; apply (lt_same src b n s b' n' s' k R R'); auto|].
    split; intros i Hi; rewrite ?(get_spec _ _ _ _ _ R), (get_spec _ _ _ _ _ R').
    + dif; [lia|auto].
    + destruct ((Z.of_nat b' <=? i) && _) eqn:E1; destruct ((Z.of_nat b <=? i) && _) eqn:E2; auto; lia.
  - exfalso. apply (release_no_crash src b n s R). rewrite Hm. auto.
  - exfalso. unfold trelease in E. destruct (negb _); [easy|]. cbv zeta in E.
    destruct (_ && _); [|easy]. destruct (_ >? _); easy.
Qed.
Print Assumptions C14_last_release.

(** Releasing in any order but innermost first panics; the innermost release never does. *)
Theorem C14_release_order : forall src ops s m, trun src new_unbuffered ops = Done s ->
  (trelease s m = Crash <-> m <> - markers s).
Proof.
  intros src ops s m H. destruct (reach_rep _ _ _ H) as (b & n & R). split.
  - intros E ->. apply (release_no_crash src b n s R E).
  - intros Hne. unfold trelease. destruct (m =? - markers s) eqn:E; [lia|auto].
Qed.
Print Assumptions C14_release_order.

Example C14_nonvacuous :
  let src := src_of [tk 5 0 [97]; tk 6 0 [98]; tk 7 0 [99]] eofk in
  exists s s1 s2, trun src new_unbuffered [TConsume] = Done s /\ tmark s = (s1, -1) /\
    keeps src 1 s1 [TConsume; TMark; TLt 2; TConsume; TRelease (-2)] /\
    trun src s1 [TConsume; TMark; TLt 2; TConsume; TRelease (-2)] = Done s2 /\ cur s2 = 3 /\
    exists s3, tseek src s2 1 = Done s3 /\ trelease s3 (-1) <> Crash.
Proof.
  eexists _, _, _. split; [vm_compute; reflexivity|]. split; [vm_compute; reflexivity|].
  split; [vm_compute; repeat split; discriminate|]. split; [vm_compute; reflexivity|].
  split; [reflexivity|]. eexists. split; [vm_compute; reflexivity|]. vm_compute. discriminate.
Qed.

(** C15: without any mark the stream keeps every token ever consumed, on every source. *)
Theorem C15_memory_grows_refuted : forall src k, (1 <= k)%nat -> no_eof_before src k ->
  exists s, trun src new_unbuffered (repeat TConsume k) = Done s /\ markers s = 0 /\ tsize s > Z.of_nat k /\
    (forall i, (i <= k)%nat -> get s (Z.of_nat i) = Done (tok_at src i)).
Proof.
  intros src k Hk Hno.
  destruct (consume_grow src k 0 new_unbuffered 0 (rep_new src) eq_refl Hno) as (s & n & E & R & Hc & Hm & Hn).
  exists s. split; [auto|]. split; [rewrite Hm; auto|]. split.
  - unfold tsize. rewrite (r_toks _ _ _ _ R), zlen_map_seq. lia.
  - intros i Hi. rewrite (get_spec _ _ _ _ _ R). dif; [|lia]. rewrite Nat2Z.id. auto.
Qed.
Print Assumptions C15_memory_grows_refuted.

(** So no constant bounds the buffer. *)
Theorem C15_no_bound_refuted : forall bound : Z, exists src ops s,
  trun src new_unbuffered ops = Done s /\ markers s = 0 /\ Forall (fun o => o = TConsume) ops /\ tsize s > bound.
Proof.
  intros bound. exists (fun _ => tk 5 0 []). set (k := S (Z.to_nat bound)).
  destruct (C15_memory_grows_refuted (fun _ => tk 5 0 []) k ltac:(lia)) as (s & E & Hm & Hs & _).
  { intros m _. unfold is_eof. cbn. discriminate. }
  exists (repeat TConsume k), s. split; [auto|]. split; [auto|]. split; [|lia].
  apply Forall_forall. intros x Hx. eapply repeat_spec; eauto.
Qed.
Print Assumptions C15_no_bound_refuted.

(** C16.  Consuming on a parser token stream (any channel, any history): the next current token is
    the first visible one after the old position, every token up to it stays retrievable; at EOF
    consume panics.  [fuel] bounds the search loop; any bound beyond the EOF position is enough. *)
Theorem C16_consume_next_visible : forall src ch fuel ops s e,
  crun src ch fuel (with_channel src) ops = Done s -> is_eof src e -> (e <= fuel)%nat ->
  exists c, cur s = Z.of_nat c /\
    (is_eof src c -> cconsume src ch fuel s = Crash) /\
    (~ is_eof src c -> exists s' j, cconsume src ch fuel s = Done s' /\ first_visible src ch (S c) j /\
       cur s' = Z.of_nat j /\ clt src ch fuel s' 1 = Done (s', Some (tok_at src j)) /\
       (forall i, (i <= j)%nat -> get s' (Z.of_nat i) = Done (tok_at src i))).
Proof.
  intros src ch fuel ops s e H He Hf. destruct (crun_reach _ _ _ _ _ H) as (n & C & Hn).
  pose proof (crep_cur _ _ _ C) as Hpc. pose proof C as [R Hp]. pose proof (r_p _ _ _ _ R) as Hp0.
  exists (Z.to_nat (cur s)). split; [lia|].
  destruct (cconsume_spec src ch fuel n s (Z.to_nat (cur s)) C ltac:(lia)) as [H1 H2].
  split; [auto|]. intros Hne. destruct (H2 e Hne He ltac:(lia)) as (s' & n' & j & E & C' & Hn' & Hc' & Hm' & Hv).
  exists s', j. pose proof (crep_cur _ _ _ C') as Hpc'. pose proof C' as [R' Hp'].
  split; [auto|]. split; [auto|]. split; [auto|]. split.
  - unfold clt. rewrite Hpc', Hc'. change (1 =? 1) with true. cbv iota.
    rewrite (rep_get src n' s' j R') by lia. auto.
  - intros i Hi. rewrite (get_spec _ _ _ _ _ R'). dif; [|lia]. rewrite Nat2Z.id. auto.
Qed.
Print Assumptions C16_consume_next_visible.

(** Reading lt(1) and consuming until EOF visits exactly the on-channel tokens in order, then EOF —
    for every finite token list, provided the first token is on the channel (see C17). *)
Theorem C16_traversal : forall ts e ch fuel n,
  Forall (fun t => t_type t <> TOKEN_EOF) ts -> t_type e = TOKEN_EOF ->
  (match ts with [] => True | t :: _ => t_channel t = ch end) ->
  (length ts <= fuel)%nat -> (length ts < n)%nat ->
  let src := src_of ts e in
  visit src ch fuel n (with_channel src) =
    Done (map (tok_at src) (filter (fun i => t_channel (src i) =? ch) (seq 0 (length ts))) ++ [tok_at src (length ts)]).
Proof.
  intros ts e ch fuel n Hts He Hhd Hf Hn src. destruct (with_channel_rep src) as [C Hc].
  assert (Heof : eof_number src (length ts)).
  { split.
    - unfold is_eof, src, src_of. rewrite nth_overflow by lia. auto.
    - intros m Hm. unfold is_eof, src, src_of. rewrite Forall_forall in Hts. apply Hts. apply nth_In. auto. }
  rewrite (visit_spec src ch fuel n 1 _ 0 (length ts) C Hc Heof); auto; try lia.
  - rewrite Nat.sub_0_r. auto.
  - destruct ts as [|t ts]; [right; destruct Heof; auto|left; auto].
Qed.
Print Assumptions C16_traversal.

Example C16_nonvacuous :
  let ts := [tk 5 0 [97]; tk 1 1 [32]; tk 1 1 [32]; tk 6 0 [98]; tk 1 1 [32]] in
  visit (src_of ts eofk) 0 5 6 (with_channel (src_of ts eofk)) =
    Done [Tok 5 0 [97] 0 1 0; Tok 6 0 [98] 3 1 0; Tok (-1) 0 [] 5 1 0].
Proof. reflexivity. Qed.

(** C17 is false: a fresh stream always starts at source token 0, even if that one is hidden. *)
Theorem C17_starts_on_channel_refuted : exists ts e, t_type e = TOKEN_EOF /\
  Forall (fun t => t_type t <> TOKEN_EOF) ts /\
  let src := src_of ts e in let s := with_channel src in
  exists t, clt src TOKEN_DEFAULT_CHANNEL 100 s 1 = Done (s, Some t) /\
    t_channel t <> TOKEN_DEFAULT_CHANNEL /\ t_type t <> TOKEN_EOF /\
    (* the parser's first token should have been this one *)
    first_visible src TOKEN_DEFAULT_CHANNEL 0 1 /\ t <> tok_at src 1.
Proof.
  exists [tk 1 1 [32]; tk 5 0 [97]], eofk. split; [reflexivity|]. split; [repeat constructor; discriminate|].
  eexists. split; [vm_compute; reflexivity|]. split; [discriminate|]. split; [discriminate|].
  split; [|vm_compute; discriminate].
  split; [lia|]. split; [left; reflexivity|]. intros m Hm. assert (m = 0%nat) by lia. subst.
  intros [H|H]; vm_compute in H; discriminate.
Qed.
Print Assumptions C17_starts_on_channel_refuted.

(** It holds when the first token is visible; in general the start is always token 0. *)
Theorem C17_starts_at_zero_partial : forall src ch fuel,
  let s := with_channel src in
  cur s = 0 /\ clt src ch fuel s 1 = Done (s, Some (tok_at src 0)) /\
  (visible src ch 0 -> first_visible src ch 0 0).
Proof.
  intros src ch fuel s. destruct (with_channel_rep src) as [C Hc]. fold s in C, Hc. split; [auto|].
  pose proof (crep_cur _ _ _ C) as Hpc. destruct C as [R Hp]. split.
  - unfold clt. change (1 =? 1) with true. cbv iota. rewrite Hpc, Hc.
    change 0 with (Z.of_nat 0). rewrite (rep_get src 1 s 0 R) by lia. auto.
  - intros Hv. split; [lia|]. split; [auto|]. intros; lia.
Qed.
Print Assumptions C17_starts_at_zero_partial.

(** C18.  Lookahead counts visible tokens from the current one and sticks at EOF. *)
Theorem C18_lookahead : forall src ch fuel ops s e k,
  crun src ch fuel (with_channel src) ops = Done s -> is_eof src e -> (e <= fuel)%nat -> 1 <= k ->
  exists c s' j, cur s = Z.of_nat c /\ clt src ch fuel s k = Done (s', Some (tok_at src j)) /\
    kth_visible src ch c (Z.to_nat k) j /\ cur s' = cur s /\
    (* nothing observable moved: current token and buffered tokens are as before *)
    clt src ch fuel s' 1 = Done (s', Some (tok_at src c)) /\
    (forall i t, get s i = Done t -> get s' i = Done t).
Proof.
  intros src ch fuel ops s e k H He Hf Hk. destruct (crun_reach _ _ _ _ _ H) as (n & C & Hn).
  pose proof (crep_cur _ _ _ C) as Hpc. pose proof C as [R Hp]. pose proof (r_p _ _ _ _ R) as Hp0.
  destruct (clt_spec src ch fuel n s (Z.to_nat (cur s)) k e C ltac:(lia) Hk He ltac:(lia))
    as (s' & n' & j & E & C' & Hn' & Hc' & Hp' & _ & Hv).
  exists (Z.to_nat (cur s)), s', j. split; [lia|]. split; [auto|]. split; [auto|]. split; [auto|].
  pose proof (crep_cur _ _ _ C') as Hpc'. pose proof C' as [R' Hpp']. split.
  - unfold clt. change (1 =? 1) with true. cbv iota.
    replace (p s') with (Z.of_nat (Z.to_nat (cur s))) by lia. rewrite (rep_get src n' s' _ R') by lia. auto.
  - intros i t. rewrite (get_spec _ _ _ _ _ R), (get_spec _ _ _ _ _ R').
    destruct ((Z.of_nat 0 <=? i) && (i <? Z.of_nat (0 + n))) eqn:E1; [|easy]. intros Hd; inversion Hd.
    dif; [auto|lia].
Qed.
Print Assumptions C18_lookahead.

(** kth_visible determines the token, so C18 fixes the result uniquely. *)
Theorem C18_lookahead_unique : forall src ch c k j j',
  kth_visible src ch c k j -> kth_visible src ch c k j' -> j = j'.
Proof.
  assert (Hpos : forall src ch c j, ~ kth_visible src ch c 0 j) by (intros src ch c j H; inversion H).
  assert (Hfv : forall src ch i j j', first_visible src ch i j -> first_visible src ch i j' -> j = j').
  { intros src ch i j j' (A & B & D) (A' & B' & D').
    destruct (Nat.lt_trichotomy j j') as [Hl|[Hl|Hl]]; auto; exfalso.
    - apply (D' j); auto; lia.
    - apply (D j'); auto; lia. }
  induction k as [|k IH]; intros j j' H H'; [exfalso; eapply Hpos; eauto|].
  inversion H as [Hk|k1 x Hx Hex|k1 x y Hx Hex Hfx]; inversion H' as [Hk'|k2 x' Hx' Hex'|k2 x' y' Hx' Hex' Hfx']; subst;
    try reflexivity; try (exfalso; eapply Hpos; eassumption).
  - eapply IH; eassumption.
  - assert (j = x') by (eapply IH; eassumption). subst. contradiction.
  - assert (x = j') by (eapply IH; eassumption). subst. contradiction.
  - assert (x = x') by (eapply IH; eassumption). subst. eapply Hfv; eassumption.
Qed.
Print Assumptions C18_lookahead_unique.

Example C18_nonvacuous :
  let ts := [tk 5 0 [97]; tk 1 1 [32]; tk 6 0 [98]; tk 1 1 [32]] in
  let src := src_of ts eofk in
  exists s, crun src 0 10 (with_channel src) [CConsume; CSeek 0; CLt 2] = Done s /\
   (exists s', clt src 0 10 s 2 = Done (s', Some (Tok 6 0 [98] 2 1 0))) /\
   (exists s', clt src 0 10 s 3 = Done (s', Some (Tok (-1) 0 [] 4 1 0))) /\
   (exists s', clt src 0 10 s 9 = Done (s', Some (Tok (-1) 0 [] 4 1 0))).
Proof. eexists. split; [vm_compute; reflexivity|]. repeat split; eexists; vm_compute; reflexivity. Qed.

(** C19 is false: look-behind can panic, and can return a token that is not the k-th previous one. *)
Theorem C19_lookbehind_panics_refuted : exists ts e ops s, t_type e = TOKEN_EOF /\
  let src := src_of ts e in
  crun src 0 100 (with_channel src) ops = Done s /\ clt src 0 100 s (-1) = Crash.
Proof.
  exists [tk 1 1 [32]; tk 5 0 [97]; tk 6 0 [98]], eofk, [CConsume]. eexists. split; [reflexivity|].
  split; [vm_compute; reflexivity|]. vm_compute. reflexivity.
Qed.
Print Assumptions C19_lookbehind_panics_refuted.

Theorem C19_lookbehind_wrong_token_refuted : exists ts e ops s, t_type e = TOKEN_EOF /\
  let src := src_of ts e in
  crun src 0 100 (with_channel src) ops = Done s /\
  (* only one on-channel token precedes the current one, yet lt(-2) is not None *)
  (forall j, ~ kth_back src 0 2 2 j) /\ cur s = 2 /\
  exists t, clt src 0 100 s (-2) = Done (s, Some t).
Proof.
  exists [tk 5 0 [97]; tk 1 1 [32]; tk 6 0 [98]], eofk, [CConsume]. eexists. split; [reflexivity|].
  split; [vm_compute; reflexivity|]. split; [|split; [reflexivity|eexists; vm_compute; reflexivity]].
  intros j H. inversion H as [|k x y Hx Hy]; subst. inversion Hx as [z Hz|? ? ? Hbad]; subst; [|inversion Hbad].
  destruct Hz as (A & B & D). destruct Hy as (A' & B' & D').
  assert (x = 0 \/ x = 1)%nat as [-> | ->] by lia; [lia|]. vm_compute in B. discriminate.
Qed.
Print Assumptions C19_lookbehind_wrong_token_refuted.

(** When k on-channel tokens precede the position, lt(-k) is the k-th of them; when the index is
    smaller than k the answer is None. *)
Theorem C19_lookbehind_partial : forall src ch fuel ops s c k j,
  crun src ch fuel (with_channel src) ops = Done s -> cur s = Z.of_nat c -> (c <= fuel)%nat -> 1 <= k ->
  kth_back src ch c (Z.to_nat k) j -> clt src ch fuel s (- k) = Done (s, Some (tok_at src j)).
Proof.
  intros src ch fuel ops s c k j H Hc Hf Hk Hb. destruct (crun_reach _ _ _ _ _ H) as (n & C & Hn).
  eapply lb_found; eauto.
Qed.
Print Assumptions C19_lookbehind_partial.

Theorem C19_lookbehind_none_partial : forall src ch fuel ops s k,
  crun src ch fuel (with_channel src) ops = Done s -> 1 <= k -> cur s < k ->
  clt src ch fuel s (- k) = Done (s, None).
Proof.
  intros src ch fuel ops s k H Hk Hc. destruct (crun_reach _ _ _ _ _ H) as (n & C & Hn).
  pose proof (crep_cur _ _ _ C) as Hpc. unfold clt.
  destruct (- k =? 1) eqn:E1; [lia|]. destruct (- k =? 0) eqn:E2; [lia|]. destruct (- k <? 0) eqn:E3; [|lia].
  unfold lb. destruct (_ || _) eqn:E4; [auto|lia].
Qed.
Print Assumptions C19_lookbehind_none_partial.

Example C19_nonvacuous :
  let src := src_of [tk 5 0 [97]; tk 1 1 [32]; tk 6 0 [98]; tk 1 1 [32]; tk 7 0 [99]] eofk in
  exists s, crun src 0 10 (with_channel src) [CConsume; CConsume] = Done s /\ cur s = 4 /\
    kth_back src 0 4 2 0 /\ clt src 0 10 s (-2) = Done (s, Some (Tok 5 0 [97] 0 1 0)).
Proof.
  eexists. split; [vm_compute; reflexivity|]. split; [reflexivity|]. split; [|vm_compute; reflexivity].
  apply (kb_next _ _ _ 1 2 0).
  - constructor. split; [lia|]. split; [reflexivity|]. intros m Hm. assert (m = 3)%nat as -> by lia. vm_compute. discriminate.
  - split; [lia|]. split; [reflexivity|]. intros m Hm. assert (m = 1)%nat as -> by lia. vm_compute. discriminate.
Qed.

(** C20.  Text of a token range on a parser token stream. *)
Theorem C20_range_text : forall src ch fuel ops s a b,
  crun src ch fuel (with_channel src) ops = Done s ->
  (a <= b)%nat -> (Z.of_nat b < tsize s) ->
  get_text_from_interval s (Z.of_nat a) (Z.of_nat b) =
    Done (concat (map (fun i => t_text (src i)) (seq a (if t_type (src b) =? TOKEN_EOF then b - a else S (b - a))))).
Proof.
  intros src ch fuel ops s a b H Hab Hb. destruct (crun_reach _ _ _ _ _ H) as (n & [R Hp] & Hn).
  unfold get_text_from_interval, get_buffer_start_index, tsize in *. cbv zeta.
  rewrite (r_base _ _ _ _ R). rewrite (r_toks _ _ _ _ R), zlen_map_seq in *. 
  destruct (_ || _) eqn:E; [lia|]. rewrite sub_list_map_seq by lia. f_equal.
  replace (0 + Z.to_nat (Z.of_nat a - Z.of_nat 0))%nat with a by lia.
  replace (Z.to_nat (Z.of_nat b - Z.of_nat 0 + 1 - (Z.of_nat a - Z.of_nat 0))) with (S (b - a)) by lia.
  assert (Hno : no_eof_before src b) by (apply (rep_noeof_lt src n s b R); lia).
  clear - Hno Hab.
  remember (b - a)%nat as d eqn:Hd. revert a Hab Hd. induction d as [|d IH]; intros a Hab Hd.
  - assert (a = b) by lia. subst a. cbn. destruct (t_type (src b) =? TOKEN_EOF); cbn; auto.
  - assert (Ha : ~ is_eof src a) by (apply Hno; lia). unfold is_eof in Ha.
    change (seq a (S (S d))) with (a :: seq (S a) (S d)). cbn [map text_until_eof tok_at set_index t_type t_text].
    destruct (t_type (src a) =? TOKEN_EOF) eqn:E; [lia|].
    rewrite (IH (S a)) by lia.
    destruct (t_type (src b) =? TOKEN_EOF); reflexivity.
Qed.
Print Assumptions C20_range_text.

(** A range reaching outside the buffered window panics. *)
Theorem C20_outside_panics : forall src ch fuel ops s a b,
  crun src ch fuel (with_channel src) ops = Done s -> a < 0 \/ tsize s <= b ->
  get_text_from_interval s a b = Crash.
Proof.
  intros src ch fuel ops s a b H Hor. destruct (crun_reach _ _ _ _ _ H) as (n & [R Hp] & Hn).
  unfold get_text_from_interval, get_buffer_start_index, tsize in *. cbv zeta. rewrite (r_base _ _ _ _ R).
  destruct (_ || _) eqn:E; [auto|lia].
Qed.
Print Assumptions C20_outside_panics.

(** All text: the tokens fetched so far. *)
Theorem C20_all_text : forall src ch fuel ops s, crun src ch fuel (with_channel src) ops = Done s ->
  exists b, tsize s = Z.of_nat (S b) /\
  get_all_text s =
    Done (concat (map (fun i => t_text (src i)) (seq 0 (if t_type (src b) =? TOKEN_EOF then b else S b)))).
Proof.
  intros src ch fuel ops s H. pose proof H as H'. destruct (crun_reach _ _ _ _ _ H) as (n & [R Hp] & Hn).
  assert (Hs : tsize s = Z.of_nat n) by (unfold tsize; rewrite (r_toks _ _ _ _ R), zlen_map_seq; auto).
  exists (pred n). split; [lia|]. unfold get_all_text.
  replace (tsize s - 1) with (Z.of_nat (pred n)) by lia.
  change 0 with (Z.of_nat 0) at 1. rewrite (C20_range_text src ch fuel ops s 0 (pred n) H') by lia. rewrite Nat.sub_0_r. auto.
Qed.
Print Assumptions C20_all_text.

Example C20_nonvacuous :
  let src := src_of [tk 5 0 [97]; tk 1 1 [32]; tk 6 0 [98; 99]] eofk in
  exists s, crun src 0 10 (with_channel src) [CConsume; CConsume] = Done s /\
    get_text_from_interval s 1 3 = Done [32; 98; 99] /\ get_all_text s = Done [97; 32; 98; 99].
Proof. eexists. split; [vm_compute; reflexivity|]. split; reflexivity. Qed.

(** C71.  Lookahead at or past the end: EOF on the parser stream ... *)
Theorem C71_common_la_past_end : forall src ch fuel ops s e c k,
  crun src ch fuel (with_channel src) ops = Done s -> eof_number src e -> (e <= fuel)%nat ->
  cur s = Z.of_nat c -> Z.of_nat e < Z.of_nat c + k -> 1 <= k ->
  exists s', cla src ch fuel s k = Done (s', TOKEN_EOF).
Proof.
  intros src ch fuel ops s e c k H [He Hno] Hf Hc Hk Hk1. 
  destruct (C18_lookahead src ch fuel ops s e k H He Hf Hk1) as (c' & s' & j & Hc' & E & Hv & _).
  assert (c' = c) by lia; subst c'.
  assert (Hadv : forall m j, kth_visible src ch c m j -> is_eof src j \/ (c + m <= S j)%nat).
  { intros m i Hi. induction Hi as [|m i Hi IH Hie|m i i' Hi IH Hne Hfv].
    - right; lia.
    - left; auto.
    - destruct IH as [IH|IH]; [easy|]. right. destruct Hfv; lia. }
  assert (Hcn : (c <= e)%nat).
  { destruct (crun_reach _ _ _ _ _ H) as (n & [R Hp] & Hn). pose proof (eof_le _ _ _ _ R He).
    pose proof (r_base _ _ _ _ R). lia. }
  assert (Hle : forall m j, kth_visible src ch c m j -> (j <= e)%nat).
  { intros m i Hi. induction Hi as [|m i Hi IH Hie|m i i' Hi IH Hne Hfv]; auto.
    destruct Hfv as (A & B & D). destruct (le_lt_dec i' e); auto. exfalso.
    destruct (Nat.eq_dec i e) as [->|]; [easy|]. apply (D e); [lia|]. right; auto. }
  pose proof (Hle _ _ Hv). destruct (Hadv _ _ Hv) as [Hj|Hj].
  - exists s'. unfold cla. rewrite E. cbn. unfold is_eof in Hj. rewrite Hj. auto.
  - assert (j = e) by lia. subst j. exists s'. unfold cla. rewrite E. cbn. unfold is_eof in He. rewrite He. auto.
Qed.
Print Assumptions C71_common_la_past_end.

(** ... but not on the unbuffered stream: past EOF every la(k) is TOKEN_INVALID_TYPE. *)
Theorem C71_unbuffered_la_past_end_refuted : forall src ops s e c k,
  trun src new_unbuffered ops = Done s -> eof_number src e -> cur s = Z.of_nat c ->
  Z.of_nat e < Z.of_nat c + k - 1 -> 1 <= k ->
  exists s', tla src s k = Done (s', TOKEN_INVALID_TYPE) /\ TOKEN_INVALID_TYPE <> TOKEN_EOF.
Proof.
  intros src ops s e c k H [He Hno] Hc Hk Hk1. destruct (reach_rep _ _ _ H) as (b & n & R).
  destruct (lt_spec src b n s k c R Hk1 Hc) as (s' & n' & r & E & _ & _ & _ & _ & _ & _ & Hb & _).
  exists s'. split; [|discriminate]. unfold tla. rewrite E. cbn. rewrite Hb; auto.
  intros Hno'. apply (Hno' e); auto. lia.
Qed.
Print Assumptions C71_unbuffered_la_past_end_refuted.

Example C71_nonvacuous :
  let src := src_of [tk 5 0 [97]] eofk in
  eof_number src 1 /\ exists s', tla src new_unbuffered 3 = Done (s', 0).
Proof.
  split; [split; [reflexivity|]|eexists; vm_compute; reflexivity].
  intros m Hm. assert (m = 0)%nat as -> by lia. vm_compute. discriminate.
Qed.

(** C72.  The token iterator yields the remaining tokens up to and including EOF, then None forever. *)
Theorem C72_token_iterator : forall src ops s e c, trun src new_unbuffered ops = Done s ->
  eof_number src e -> cur s = Z.of_nat c ->
  forall extra, exists s',
    titer_take src (S (e - c) + extra) s false =
    Done (s', true, map (fun i => Some (tok_at src i)) (seq c (S (e - c))) ++ repeat None extra).
Proof.
  intros src ops s e c H [He Hno] Hc extra. destruct (reach_rep _ _ _ H) as (b & n & R).
  pose proof (rep_noeof_cur _ _ _ _ _ R Hc) as Hnc.
  assert (Hce : (c <= e)%nat) by (destruct (le_lt_dec c e); auto; exfalso; apply (Hnc e); auto).
  assert (Hno' : no_eof_before src (c + (e - c))) by (replace (c + (e - c))%nat with e by lia; auto).
  destruct (titer_spec src (e - c) b n s c R Hc Hno') as (s1 & b1 & n1 & E1 & R1 & Hc1).
  destruct (titer_eof src b1 n1 s1 e R1 ltac:(lia) He) as (s2 & E2).
  assert (Hend : forall x s, titer_take src x s true = Done (s, true, repeat None x)).
  { induction x as [|x IH]; intros s0; cbn; auto. rewrite IH. auto. }
  assert (Happ : forall m x s f s1 f1 l1, titer_take src m s f = Done (s1, f1, l1) ->
     titer_take src (m + x) s f = do r <- titer_take src x s1 f1; let '(s, f, xs) := r in Done (s, f, l1 ++ xs)).
  { clear. induction m as [|m IH]; intros x s f s1 f1 l1 H; cbn [titer_take Nat.add] in *.
    - inversion H; subst. destruct (titer_take src x s1 f1) as [[[? ?] ?]| |]; auto.
    - destruct (titer_next src s f) as [[[s' f'] y]| |]; cbn [obind] in *; try easy.
      destruct (titer_take src m s' f') as [[[s2 f2] ys]| |] eqn:E; cbn [obind] in *; try easy.
      inversion H; subst. rewrite (IH x _ _ _ _ _ E).
      destruct (titer_take src x s1 f1) as [[[? ?] ?]| |]; auto. }
  exists s2. replace (S (e - c) + extra)%nat with ((e - c) + S extra)%nat by lia.
  rewrite (Happ _ (S extra) _ _ _ _ _ E1). cbn [titer_take]. rewrite E2. cbn [obind]. rewrite Hend. cbn [obind].
  do 2 f_equal. rewrite seq_S, map_app, <- app_assoc. cbn. replace (c + (e - c))%nat with e by lia. auto.
Qed.
Print Assumptions C72_token_iterator.

Example C72_nonvacuous :
  let src := src_of [tk 5 0 [97]; tk 6 1 [32]] eofk in
  exists s', titer_take src 5 new_unbuffered false =
    Done (s', true, [Some (Tok 5 0 [97] 0 1 0); Some (Tok 6 1 [32] 1 1 0); Some (Tok (-1) 0 [] 2 1 0); None; None]).
Proof. eexists. vm_compute. reflexivity. Qed.

(** The symbol iterator panics at EOF on every token stream as well (see C10). *)
Theorem C10_token_stream_iteration_refuted : forall src ops s e, trun src new_unbuffered ops = Done s ->
  cur s = Z.of_nat e -> is_eof src e -> iwrap_next src s = Crash.
Proof.
  intros src ops s e H Hc He. destruct (reach_rep _ _ _ H) as (b & n & R).
  unfold iwrap_next, tla.
  destruct (lt_spec src b n s 1 e R ltac:(lia) Hc) as (s1 & n1 & r & E & R1 & _ & Hc1 & _).
  rewrite E. cbn [obind]. destruct (consume_spec src b n1 s1 e R1 ltac:(lia)) as [H1 _].
  rewrite H1 by auto. auto.
Qed.
Print Assumptions C10_token_stream_iteration_refuted.

Theorem C10_common_stream_iteration_refuted : forall src ch fuel ops s e,
  crun src ch fuel (with_channel src) ops = Done s ->
  cur s = Z.of_nat e -> is_eof src e -> ciwrap_next src ch fuel s = Crash.
Proof.
  intros src ch fuel ops s e H Hc He. destruct (crun_reach _ _ _ _ _ H) as (n & C & Hn).
  unfold ciwrap_next, cla, clt. change (1 =? 1) with true. cbv iota. cbn [obind].
  destruct (cconsume_spec src ch fuel n s e C Hc) as [H1 _]. rewrite H1 by auto. auto.
Qed.
Print Assumptions C10_common_stream_iteration_refuted.
