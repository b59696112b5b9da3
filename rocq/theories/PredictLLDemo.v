(** Small grammars for the theorems about right predictions, and a check of the
    conditions those theorems put on a grammar. *)
From Coq Require Import ZArith List Bool Lia ZifyBool.
From Verif Require Import Outcome IntervalSetModel AtnModel AtnSpec TokenStreamModel TokenStreamSpec.
From Verif Require Import PredContextModel SemContextModel ConfigSetModel DfaModel Ll1Model Ll1Spec ParserModel ParserDemo PredictModel PredictDemo PredictLLSpec.
Import ListNotations.
Local Open Scope Z_scope.

(** ** [simple_grammar], decided *)
Definition indexed (a : atn) : list (Z * atn_state) := combine (map Z.of_nat (seq 0 (length (states a)))) (states a).
Definition stop_b (s : atn_state) : bool := match st_type s with RuleStopState => true | _ => false end.
Definition exists_b (a : atn) (i : Z) : bool := match state_at a i with Some _ => true | None => false end.
Definition call_list (a : atn) : list (Z * Z * Z) :=
  flat_map (fun s => if stop_b s then [] else
    flat_map (fun t => match t with RuleTr g f _ _ => [(st_rule s, rule_of a g, f)] | _ => [] end) (st_trans s)) (states a).
Definition trans_b (a : atn) (s : atn_state) (t : transition) : bool :=
  exists_b a (get_target t) &&
  match t with
  | RuleTr _ f _ _ => exists_b a f && (rule_of a f =? st_rule s)
  | SetTr _ _ | NotSet _ _ | PredicateTr _ _ _ _ | PrecedenceTr _ _ => false
  | _ => rule_of a (get_target t) =? st_rule s
  end.
Definition plain_b (t : transition) : bool := match t with PredicateTr _ _ _ _ | PrecedenceTr _ _ => false | _ => true end.
Definition state_b (a : atn) (x : Z * atn_state) : bool :=
  let '(i, s) := x in
  (st_number s =? i) && forallb plain_b (st_trans s) &&
  match st_type s with DecisionState _ _ (StarLoopEntry _ true) => false | _ => true end &&
  forallb (fun t => Bool.eqb (is_epsilon t) (st_eps_only s)) (st_trans s) &&
  match st_trans s with [] => negb (st_eps_only s) | _ => true end &&
  (if stop_b s then
     forallb (fun t => match t with Epsilon f _ => exists_b a f | _ => false end) (st_trans s) &&
     forallb (fun c => negb (snd (fst c) =? st_rule s) ||
       existsb (fun t => match t with Epsilon f _ => f =? snd c | _ => false end) (st_trans s)) (call_list a)
   else forallb (trans_b a s) (st_trans s)).
Definition main_b (a : atn) (main : Z) : bool :=
  forallb (fun c => negb (snd (fst c) =? main)) (call_list a) &&
  forallb (fun s => negb (stop_b s) || negb (st_rule s =? main) || match st_trans s with [] => true | _ => false end) (states a).

Lemma in_indexed a i s : state_at a i = Some s -> In (i, s) (indexed a).
Proof.
  unfold state_at, indexed. destruct (Z.ltb_spec i 0); [discriminate|]. intros E.
  assert (X : forall l k n, nth_error l n = Some s -> In (Z.of_nat (k + n), s) (combine (map Z.of_nat (seq k (length l))) l)).
  { clear. induction l as [|x l IH]; intros k [|n] E; try discriminate; cbn in *.
    - left. inversion E. f_equal. lia.
    - right. replace (k + Datatypes.S n)%nat with (Datatypes.S k + n)%nat by lia. apply IH, E. }
  specialize (X _ 0%nat _ E). replace i with (Z.of_nat (0 + Z.to_nat i)) by lia. exact X.
Qed.
Lemma stop_dec s : stop_b s = true <-> Ll1Spec.is_stop s.
Proof. unfold stop_b, Ll1Spec.is_stop. destruct (st_type s); split; congruence. Qed.
Lemma exists_dec a i : exists_b a i = true -> exists_state a i.
Proof. unfold exists_b, exists_state. destruct (state_at a i); congruence. Qed.
Lemma state_in a i s : state_at a i = Some s -> In s (states a).
Proof. unfold state_at. destruct (i <? 0); [discriminate|]. apply nth_error_In. Qed.
Lemma calls_in a x y f : calls a x y f -> In (x, y, f) (call_list a).
Proof.
  intros (i & s & g & r & p & E & St & <- & I & <-). apply in_flat_map. exists s. split; [eapply state_in; eauto|].
  destruct (stop_b s) eqn:Q; [apply stop_dec in Q; contradiction|]. apply in_flat_map. eexists. split; [exact I | left; reflexivity].
Qed.
Definition linked_b (a : atn) : bool := (Z.of_nat (length (states a)) <=? 2147483647) && forallb (state_b a) (indexed a).
Lemma linked_dec a : linked_b a = true -> well_formed a /\ predicate_free a /\ marked a /\ linked a.
Proof.
  unfold linked_b. rewrite andb_true_iff, forallb_forall. intros (Len & H).
  assert (X : forall i s, state_at a i = Some s -> state_b a (i, s) = true) by (intros i s E; apply H, in_indexed, E). clear H.
  unfold state_b in X.
  assert (Y : forall i s, state_at a i = Some s -> st_number s = i /\ (forall t, In t (st_trans s) -> plain_b t = true) /\
    match st_type s with DecisionState _ _ (StarLoopEntry _ true) => False | _ => True end /\
    (forall t, In t (st_trans s) -> is_epsilon t = st_eps_only s) /\ (st_trans s = [] -> st_eps_only s = false) /\
    (Ll1Spec.is_stop s -> (forall t, In t (st_trans s) -> match t with Epsilon f _ => exists_b a f = true | _ => False end) /\
      forall x f, In (x, st_rule s, f) (call_list a) -> exists o, In (Epsilon f o) (st_trans s)) /\
    (~ Ll1Spec.is_stop s -> forall t, In t (st_trans s) -> trans_b a s t = true)).
  { intros i s E. specialize (X _ _ E). rewrite !andb_true_iff, !forallb_forall in X. destruct X as (((((X1 & X2) & X3) & X4) & X5) & X6).
    split; [lia|]. split; [exact X2|]. split; [destruct (st_type s) as [| | | | | |? ? k|]; auto; destruct k; auto; repeat (match goal with |- context [if ?b then _ else _] => destruct b | |- context [match ?b with true => _ | false => _ end] => destruct b end); auto; discriminate|].
    split; [intros t I; apply eqb_prop, X4, I|]. split; [intros Q; rewrite Q in X5; destruct (st_eps_only s); auto; discriminate|]. split.
    - intros St. apply stop_dec in St. rewrite St, andb_true_iff, !forallb_forall in X6. destruct X6 as (X6 & X7). split.
      + intros t I. specialize (X6 _ I). destruct t; auto; discriminate.
      + intros x f I. specialize (X7 _ I). cbn in X7. rewrite Z.eqb_refl in X7. cbn in X7. apply existsb_exists in X7 as (t & It & Q).
        destruct t; try discriminate. apply Z.eqb_eq in Q. subst. eauto.
    - intros St t I. destruct (stop_b s) eqn:Q; [apply stop_dec in Q; contradiction|]. rewrite forallb_forall in X6. apply X6, I. }
  clear X. split; [|split; [|split]].
  - split; [lia|]. intros i s E. destruct (Y _ _ E) as (Y1 & _ & _ & _ & _ & _ & Y7). split; [exact Y1|]. intros St t I. specialize (Y7 St _ I).
    unfold trans_b in Y7. apply andb_true_iff in Y7 as (T1 & T2). split; [apply exists_dec, T1|].
    destruct t; try discriminate; (split; [exact Logic.I|]); try lia. apply andb_true_iff in T2 as (T2 & T3). split; [apply exists_dec, T2 | lia].
  - intros i s E. destruct (Y _ _ E) as (_ & Y2 & Y3 & _). split; [|exact Y3]. intros t I. specialize (Y2 _ I). destruct t; auto; discriminate.
  - intros i s E. destruct (Y _ _ E) as (_ & _ & _ & Y4 & Y5 & _). auto.
  - intros i s E St. destruct (Y _ _ E) as (_ & _ & _ & _ & _ & Y6 & _). destruct (Y6 St) as (Q1 & Q2). split.
    + intros t I. specialize (Q1 _ I). destruct t; try contradiction. eexists _, _. split; [reflexivity | apply exists_dec, Q1].
    + intros x f C. eapply Q2, calls_in, C.
Qed.
Lemma simple_dec a main : linked_b a && main_b a main = true -> simple_grammar a main.
Proof.
  rewrite andb_true_iff. intros (L & M). destruct (linked_dec _ L) as (A & B & C & D). split; [exact A|]. split; [exact B|]. split; [exact C|]. split; [exact D|].
  unfold main_b in M. rewrite andb_true_iff, !forallb_forall in M. destruct M as (M1 & M2). split.
  - intros x f Q. apply calls_in in Q. specialize (M1 _ Q). cbn in M1. lia.
  - intros i s E St Er. specialize (M2 _ (state_in _ _ _ E)). apply stop_dec in St. rewrite St in M2. cbn in M2.
    destruct (st_trans s); [reflexivity|]. lia.
Qed.

(** ** Which tokens can be matched, computed for grammars without sets *)
Definition sym_b (a : atn) (t : transition) (x : Z) : bool :=
  match t with
  | Atom _ l => x =? l
  | Range _ lo hi => (lo <=? x) && (x <=? hi)
  | SetTr _ _ | NotSet _ _ => true
  | Wildcard _ => (1 <=? x) && (x <=? max_token_type a)
  | _ => false
  end.
Definition consuming_b (t : transition) : bool := match t with Atom _ _ | Range _ _ _ | SetTr _ _ | NotSet _ _ | Wildcard _ => true | _ => false end.
Definition steps (a : atn) (p : position) : list position :=
  match state_at a (fst p) with
  | None => []
  | Some s => if stop_b s then match snd p with [] => [] | f :: st => [(f, st)] end
              else flat_map (fun t => match t with RuleTr g f _ _ => [(g, f :: snd p)]
                                      | _ => if consuming_b t then [] else [(get_target t, snd p)] end) (st_trans s)
  end.
Definition takes (a : atn) (x : Z) (p : position) : list position :=
  match state_at a (fst p) with
  | None => []
  | Some s => if stop_b s then [] else flat_map (fun t => if sym_b a t x then [(get_target t, snd p)] else []) (st_trans s)
  end.
Lemma stop_no s : ~ Ll1Spec.is_stop s -> stop_b s = false.
Proof. intros N. destruct (stop_b s) eqn:E; [apply stop_dec in E; contradiction | reflexivity]. Qed.
Lemma steps_in a p q : move a p q -> In q (steps a p).
Proof.
  intros [i st s t E N I C K|i st s g f r pr E N I|i f st s E St]; unfold steps; cbn [fst snd]; rewrite E.
  - rewrite stop_no by exact N. apply in_flat_map. exists t. split; [exact I|]. destruct t; cbn in *; auto; try discriminate; exfalso; apply C; exact Logic.I.
  - rewrite stop_no by exact N. apply in_flat_map. eexists. split; [exact I | left; reflexivity].
  - apply stop_dec in St. rewrite St. left. reflexivity.
Qed.
Lemma takes_in a x p q : take a x p q -> In q (takes a x p).
Proof.
  intros [i st s t E N I K]. unfold takes. cbn [fst snd]. rewrite E, stop_no by exact N. apply in_flat_map. exists t. split; [exact I|].
  replace (sym_b a t x) with true; [left; reflexivity|]. destruct t; cbn in *; lia.
Qed.
Definition pos_dec (p q : position) : {p = q} + {p <> q}.
Proof. decide equality; [apply list_eq_dec|]; apply Z.eq_dec. Defined.
Definition in_b (p : position) (l : list position) : bool := if in_dec pos_dec p l then true else false.
Fixpoint close (a : atn) (n : nat) (l : list position) : list position :=
  match n with O => l | Datatypes.S n => close a n (l ++ filter (fun q => negb (in_b q l)) (flat_map (steps a) l)) end.
Definition closed_b (a : atn) (l : list position) : bool := forallb (fun p => forallb (fun q => in_b q l) (steps a p)) l.
(** the positions after the tokens, or [None] if the closures were not finished *)
Fixpoint after (a : atn) (n : nat) (l : list position) (w : list Z) : option (list position) :=
  let c := close a n l in
  if closed_b a c then match w with [] => Some c | x :: w => after a n (flat_map (takes a x) c) w end else None.
Lemma close_incl a n : forall l, incl l (close a n l).
Proof. induction n as [|n IH]; intros l p I; cbn; [exact I|]. apply IH, in_or_app. auto. Qed.
Lemma closed_stays a l p q : closed_b a l = true -> In p l -> move a p q -> In q l.
Proof.
  unfold closed_b. rewrite forallb_forall. intros H I M. specialize (H _ I). rewrite forallb_forall in H.
  specialize (H _ (steps_in _ _ _ M)). unfold in_b in H. destruct (in_dec pos_dec q l); [assumption | discriminate].
Qed.
Lemma after_run a n : forall w l c p r, after a n l w = Some c -> In p l -> run a p w r -> In r c.
Proof.
  assert (X : forall w p r, run a p w r -> forall l c, after a n l w = Some c -> (In p l \/ closed_b a (close a n l) = true /\ In p (close a n l)) -> In r c).
  { induction 1 as [p|p q w r M R IH|p x q w r T R IH]; intros l c E I.
    - cbn in E. destruct (closed_b a (close a n l)); [|discriminate]. inversion E; subst. destruct I as [I|(_ & I)]; [apply close_incl, I | exact I].
    - apply (IH l c E). right. assert (closed_b a (close a n l) = true) by (destruct w; cbn in E; destruct (closed_b a (close a n l)); congruence).
      split; [assumption|]. eapply closed_stays; eauto. destruct I as [I|(_ & I)]; [apply close_incl, I | exact I].
    - cbn in E. destruct (closed_b a (close a n l)); [|discriminate]. apply (IH _ _ E). left. apply in_flat_map. exists p. split; [|apply takes_in, T].
      destruct I as [I|(_ & I)]; [apply close_incl, I | exact I]. }
  intros w l c p r E I R. eapply X; eauto.
Qed.
(** no way to match [w] and then [n] EOFs, if none for no EOF and the positions die out with the first two *)
Definition ends_b (a : atn) (p : position) : bool :=
  match snd p, state_at a (fst p) with [], Some s => stop_b s | _, _ => false end.
Definition never_b (a : atn) (n : nat) (p : position) (w : list Z) : bool :=
  match after a n [p] w, after a n [p] (w ++ [-1]), after a n [p] (w ++ [-1; -1]) with
  | Some c0, Some c1, Some [] => negb (existsb (ends_b a) c0) && negb (existsb (ends_b a) c1)
  | _, _, _ => false
  end.
Lemma run_app a : forall w p r v, run a p (w ++ v) r -> exists q, run a p w q /\ run a q v r.
Proof.
  assert (X : forall u p r, run a p u r -> forall w v, u = w ++ v -> exists q, run a p w q /\ run a q v r).
  { induction 1 as [p|p q u r M R IH|p x q u r T R IH]; intros w v E.
    - symmetry in E. apply app_eq_nil in E as (-> & ->). eexists. split; constructor.
    - destruct (IH _ _ E) as (z & A & B). exists z. split; [eapply run_move; eauto | exact B].
    - destruct w as [|y w]; cbn in E.
      + subst v. exists p. split; [constructor | eapply run_take; eauto].
      + injection E as -> E. destruct (IH _ _ E) as (z & A & B). exists z. split; [eapply run_take; eauto | exact B]. }
  intros. eapply X; eauto.
Qed.
Lemma never_dec a n p w : never_b a n p w = true -> forall k, ~ completes a k p w.
Proof.
  unfold never_b. destruct (after a n [p] w) as [c0|] eqn:E0; [|discriminate]. destruct (after a n [p] (w ++ [-1])) as [c1|] eqn:E1; [|discriminate].
  destruct (after a n [p] (w ++ [-1; -1])) as [[|]|] eqn:E2; try discriminate. rewrite andb_true_iff, !negb_true_iff. intros (Q0 & Q1).
  intros k (i & s & R & Es & St). apply stop_dec in St. assert (F : ends_b a (i, []) = true) by (unfold ends_b; cbn [fst snd]; now rewrite Es).
  assert (Y : forall c, In (i, []) c -> existsb (ends_b a) c = false -> False).
  { intros c I Q. assert (existsb (ends_b a) c = true) by (apply existsb_exists; eauto). congruence. }
  destruct k as [|[|k]]; cbn [repeat] in R.
  - rewrite app_nil_r in R. eapply Y; [|exact Q0]. eapply after_run; eauto. left. reflexivity.
  - eapply Y; [|exact Q1]. eapply after_run; eauto. left. reflexivity.
  - destruct (run_app a (w ++ [-1; -1]) p (i, []) (repeat TOKEN_EOF k)) as (q & R' & _); [rewrite <- app_assoc; exact R|].
    exact (after_run _ _ _ _ _ _ _ E2 (or_introl eq_refl) R').
Qed.

(** ** Tokens A = 1, B = 2, C = 3, D = 4.
      rule 0   s : C r B EOF | D r EOF ;       (decision 0, state 2)
      rule 1   r : A | A B ;                   (decision 1, state 12)
    Whether the B after the A belongs to [r] depends on the caller. *)
Definition caller_atn : atn := Atn [2; 12] PARSER [] 4 [] [0; 10] [1; 11] [] [
  sst 0 0 2 (RuleStartState 1 false) [Epsilon 2 (-1)];
  sst 0 1 7 RuleStopState [];
  sst 0 2 3 (DecisionState 0 false (BlockStartState 9 BasicBlockStart)) [Epsilon 3 (-1); Epsilon 7 (-1)];
  sst 0 3 1 BasicState [Atom 4 3];
  sst 0 4 1 BasicState [RuleTr 10 5 1 0];
  sst 0 5 1 BasicState [Atom 6 2];
  sst 0 6 1 BasicState [Atom 9 (-1)];
  sst 0 7 1 BasicState [Atom 8 4];
  sst 0 8 1 BasicState [RuleTr 10 15 1 0];
  sst 0 9 8 (BlockEndState 2) [Epsilon 1 (-1)];
  sst 1 10 2 (RuleStartState 11 false) [Epsilon 12 (-1)];
  sst 1 11 7 RuleStopState [Epsilon 5 (-1); Epsilon 15 (-1)];
  sst 1 12 3 (DecisionState 1 false (BlockStartState 16 BasicBlockStart)) [Epsilon 13 (-1); Epsilon 14 (-1)];
  sst 1 13 1 BasicState [Atom 16 1];
  sst 1 14 1 BasicState [Atom 17 1];
  sst 0 15 1 BasicState [Atom 9 (-1)];
  sst 1 16 8 (BlockEndState 12) [Epsilon 11 (-1)];
  sst 1 17 1 BasicState [Atom 16 2]].
Lemma caller_simple : simple_grammar caller_atn 0.
Proof. apply simple_dec. vm_compute. reflexivity. Qed.

(** ** Tokens A = 1, B = 2, then ( ) [ ] = 3 4 5 6.
      rule 0   s : r | '(' r B ')' | '[' s ']' ;
      rule 1   r : A | A B ;                   (decision 1, state 15)
    The start rule is invoked by itself. *)
Definition nested_atn : atn := Atn [2; 15] PARSER [] 6 [] [0; 13] [1; 14] [] [
  sst 0 0 2 (RuleStartState 1 false) [Epsilon 2 (-1)];
  sst 0 1 7 RuleStopState [Epsilon 11 (-1)];
  sst 0 2 3 (DecisionState 0 false (BlockStartState 12 BasicBlockStart)) [Epsilon 3 (-1); Epsilon 5 (-1); Epsilon 9 (-1)];
  sst 0 3 1 BasicState [RuleTr 13 4 1 0];
  sst 0 4 1 BasicState [Epsilon 12 (-1)];
  sst 0 5 1 BasicState [Atom 6 3];
  sst 0 6 1 BasicState [RuleTr 13 7 1 0];
  sst 0 7 1 BasicState [Atom 8 2];
  sst 0 8 1 BasicState [Atom 12 4];
  sst 0 9 1 BasicState [Atom 10 5];
  sst 0 10 1 BasicState [RuleTr 0 11 0 0];
  sst 0 11 1 BasicState [Atom 12 6];
  sst 0 12 8 (BlockEndState 2) [Epsilon 1 (-1)];
  sst 1 13 2 (RuleStartState 14 false) [Epsilon 15 (-1)];
  sst 1 14 7 RuleStopState [Epsilon 4 (-1); Epsilon 7 (-1)];
  sst 1 15 3 (DecisionState 1 false (BlockStartState 19 BasicBlockStart)) [Epsilon 16 (-1); Epsilon 17 (-1)];
  sst 1 16 1 BasicState [Atom 19 1];
  sst 1 17 1 BasicState [Atom 18 1];
  sst 1 18 1 BasicState [Atom 19 2];
  sst 1 19 8 (BlockEndState 15) [Epsilon 14 (-1)]].

(** ** Tokens A = 1, B = 2, the largest type.
      rule 0   s : A . | A ;                   (decision 0, state 2) *)
Definition wildcard_atn : atn := Atn [2] PARSER [] 2 [] [0] [1] [] [
  sst 0 0 2 (RuleStartState 1 false) [Epsilon 2 (-1)];
  sst 0 1 7 RuleStopState [];
  sst 0 2 3 (DecisionState 0 false (BlockStartState 6 BasicBlockStart)) [Epsilon 3 (-1); Epsilon 5 (-1)];
  sst 0 3 1 BasicState [Atom 4 1];
  sst 0 4 1 BasicState [Wildcard 6];
  sst 0 5 1 BasicState [Atom 6 1];
  sst 0 6 8 (BlockEndState 2) [Epsilon 1 (-1)]].

Definition one_hash (_ : pctx) : Z := 1.
Notation llpredict a ts mode stack decision start d input :=
  (adaptive_predict ts a unit (fun _ _ _ _ => true) plain_order plain_alts one_hash no_dhash no_share 100 mode 0 tt stack decision start d input 0%nat).
Definition result {S} (o : outcome (sim S * presult)) : option presult := match o with Val (_, r) => Some r | _ => None end.
Definition stream_at (src : nat -> tok) (ops : list cop) : uts := match crun src 0 50 (with_channel src) ops with Done s => s | _ => with_channel src end.
