(** A generated parser used to show that the hypotheses of the theorems about generated
    parsers are met (C86, C87), and checks of the conditions they put on the code. *)
From Coq Require Import ZArith List Bool Lia ZifyBool.
From Verif Require Import Outcome AtnModel AtnSpec TokenStreamModel TokenStreamSpec.
From Verif Require Import IntervalSetModel PredContextModel SemContextModel ConfigSetModel DfaModel Ll1Model Ll1Spec ParserModel ParserDemo PredictModel PredictSpec PredictDemo PredictLLSpec PredictLLDemo PredictTotalSpec PredictTotalDemo.
From Verif Require Import GenModel GenSpec.
Import ListNotations.
Local Open Scope Z_scope.

(** ** Decided: one start state for each rule, decisions at branches, narrow labels *)
Definition starts (a : atn) : list Z := flat_map (fun s => flat_map (fun t => match t with RuleTr g _ _ _ => [g] | _ => [] end) (st_trans s)) (states a).
Definition one_start_b (a : atn) : bool := forallb (fun g => forallb (fun h => negb (rule_of a g =? rule_of a h) || (g =? h)) (starts a)) (starts a).
Lemma starts_in a g : is_rule_start a g -> In g (starts a).
Proof. intros (i & s & f & r & p & E & I). apply in_flat_map. exists s. split; [eapply state_in; eauto|]. apply in_flat_map. eexists. split; [exact I | left; reflexivity]. Qed.
Lemma one_start_dec a : one_start_b a = true -> one_start a.
Proof.
  unfold one_start_b. rewrite forallb_forall. intros H g h G K R. specialize (H _ (starts_in _ _ G)). rewrite forallb_forall in H. specialize (H _ (starts_in _ _ K)). lia.
Qed.
Definition calls_b (t : transition) : bool := match t with RuleTr _ _ _ _ => true | _ => false end.
Definition decisions_b (a : atn) (switch : Z -> option (Z -> option Z)) : bool :=
  forallb (fun '(i, s) => stop_b s || match st_trans s with [_] => true | _ => false end ||
    forallb (fun t => negb (consuming_b t) && negb (calls_b t)) (st_trans s) &&
    match switch i with
    | Some _ => true
    | None => match st_type s with DecisionState k _ _ => match vget (decision_to_state a) k with Some j => i =? j | None => false end | _ => false end
    end) (indexed a).
Lemma decisions_dec a switch : decisions_b a switch = true -> decisions_ok a switch.
Proof.
  unfold decisions_b. rewrite forallb_forall. intros H i s E N. specialize (H _ (in_indexed _ _ _ E)). cbn beta iota in H. rewrite (stop_no _ N) in H. cbn [orb] in H.
  destruct (st_trans s) as [|t [|t' l]] eqn:T; [right|left; eauto|right].
  - split; [intros t []|]. cbn in H. destruct (switch i); [left; discriminate|]. right. destruct (st_type s); try discriminate.
    destruct (vget (decision_to_state a) decision) eqn:V; [|discriminate]. eexists _, _, _. split; [reflexivity|]. rewrite V. f_equal. lia.
  - cbn [orb] in H. apply andb_true_iff in H as (H & Q). split.
    + rewrite forallb_forall in H. intros t1 I. specialize (H _ I). split; [intros C; destruct t1; try contradiction; discriminate|]. destruct t1; try discriminate; reflexivity.
    + destruct (switch i); [left; discriminate|]. right. destruct (st_type s); try discriminate.
      destruct (vget (decision_to_state a) decision) eqn:V; [|discriminate]. eexists _, _, _. split; [reflexivity|]. rewrite V. f_equal. lia.
Qed.
Definition thin_b (a : atn) : bool := forallb (fun s => forallb (fun t =>
  match t with Range _ x y => y <=? x + 1 | SetTr _ ss => forallb (fun r => iv_b r <=? iv_a r + 1) (intervals ss) | NotSet _ _ | Wildcard _ => false | _ => true end) (st_trans s)) (states a).
Lemma thin_dec a : thin_b a = true -> thin_labels a.
Proof.
  unfold thin_b. rewrite forallb_forall. intros H i s t E I. specialize (H _ (state_in _ _ _ E)). rewrite forallb_forall in H. specialize (H _ I).
  destruct t; auto; try discriminate; [lia|]. rewrite forallb_forall in H. apply Forall_forall. intros r R. specialize (H _ R). lia.
Qed.

(** ** Decided: a lookahead test at a state of the start rule, for grammars whose labels
    are single tokens *)
Definition firsts (a : atn) (l : list position) : option (list Z) :=
  fold_right (fun p o => match state_at a (fst p), o with
    | Some s, Some xs => if stop_b s then Some xs else
        fold_right (fun t o => match t, o with Atom _ x, Some xs => Some (x :: xs) | t, Some xs => if consuming_b t then None else Some xs | _, None => None end) (Some xs) (st_trans s)
    | _, _ => None
    end) (Some []) l.
Lemma firsts_in a x : forall l xs p q, firsts a l = Some xs -> In p l -> take a x p q -> In x xs.
Proof.
  induction l as [|p0 l IH]; intros xs p q F I T; [destruct I|]. cbn in F. fold (firsts a l) in F.
  destruct (state_at a (fst p0)) as [s|] eqn:E; [|discriminate]. destruct (firsts a l) as [ys|]; [|discriminate].
  assert (K : forall ts zs, fold_right (fun t o => match t, o with Atom _ x, Some xs => Some (x :: xs) | t, Some xs => if consuming_b t then None else Some xs | _, None => None end) (Some ys) ts = Some zs ->
    incl ys zs /\ forall t, In t ts -> symbols t 1 (max_token_type a) x -> In x zs).
  { clear. induction ts as [|t ts IH]; intros zs E; cbn in E.
    - injection E as <-. split; [apply incl_refl | intros t []].
    - destruct (fold_right _ _ ts) as [us|]; [|destruct t; discriminate]. destruct (IH _ eq_refl) as (A & B).
      destruct t; cbn [consuming_b] in E; try discriminate; injection E as <-; (split; [try exact A; apply incl_tl, A|]); intros t [<-|I] Q; eauto; try contradiction.
      + left. cbn in Q. lia.
      + right. eauto. }
  destruct (stop_b s) eqn:St.
  - injection F as <-. destruct I as [<-|I]; [|eauto]. destruct T as [i st s' t E' N]. cbn [fst] in E. replace s' with s in N by congruence. apply stop_dec in St. contradiction.
  - destruct (K _ _ F) as (A & B). destruct I as [<-|I]; [|eauto]. destruct T as [i st s' t E' N It Q]. cbn [fst] in E. replace s' with s in It by congruence. eauto.
Qed.
Definition ahead_b (a : atn) (n : nat) (p : position) (ok : Z -> bool) : bool :=
  let c := close a n [p] in
  closed_b a c && negb (existsb (ends_b a) c) && match firsts a c with Some xs => forallb ok xs | None => false end.
Lemma ahead_dec a n p ok k w : ahead_b a n p ok = true -> completes a k p w -> ok (hd TOKEN_EOF w) = true.
Proof.
  unfold ahead_b. rewrite !andb_true_iff, negb_true_iff. intros ((C & N) & F) (i & s & R & Es & St).
  destruct (firsts a (close a n [p])) as [xs|] eqn:Ex; [|discriminate]. rewrite forallb_forall in F.
  assert (X : forall p' u r, run a p' u r -> In p' (close a n [p]) -> match u with x :: _ => In x xs | [] => In r (close a n [p]) end).
  { induction 1 as [p'|p' q u r M R' IH|p' x q u r T R' IH]; intros I; [exact I| |].
    - apply IH. eapply closed_stays; eauto.
    - eapply firsts_in; eauto. }
  assert (Ip : In p (close a n [p])) by (apply close_incl; left; reflexivity). specialize (X _ _ _ R Ip). destruct w as [|x w]; cbn in X.
  - destruct k as [|k]; cbn in X; [|apply F, X]. exfalso. apply stop_dec in St.
    assert (existsb (ends_b a) (close a n [p]) = true) by (apply existsb_exists; exists (i, []); split; [exact X | unfold ends_b; cbn [fst snd]; now rewrite Es]). congruence.
  - apply F, X.
Qed.
Lemma main_alone a main stack conts : outermost a main -> in_progress a main main stack conts -> conts = [].
Proof.
  intros (O & _) P. remember main as r eqn:Er in P at 2. destruct P as [|i s g f r' p ts stack conts E N T P]; [reflexivity|]. exfalso.
  apply (O (st_rule s) f). exists i, s, g, r', p. rewrite T. split; [exact E|]. split; [exact N|]. split; [reflexivity|]. split; [left; reflexivity | exact Er].
Qed.
Definition test_b (a : atn) (n : nat) (i : Z) (f : Z -> option Z) : bool :=
  match state_at a i with
  | None => false
  | Some s => forallb (fun '(j, t) => ahead_b a n (get_target t, []) (fun x => match f x with Some k => k =? j | None => false end))
                (combine (map Z.of_nat (seq 1 (length (st_trans s)))) (st_trans s))
  end.
Lemma test_dec a n i f w k j : test_b a n i f = true -> viable a i [] w k j -> f (hd TOKEN_EOF w) = Some j.
Proof.
  unfold test_b. intros H (s & t & E & L & T & C). rewrite E, forallb_forall in H.
  assert (I : In (j, t) (combine (map Z.of_nat (seq 1 (length (st_trans s)))) (st_trans s))).
  { assert (X : forall l m q, nth_error l q = Some t -> In (Z.of_nat (m + q), t) (combine (map Z.of_nat (seq m (length l))) l)).
    { clear. induction l as [|x l IH]; intros m [|q] E; try discriminate; cbn in *.
      - left. injection E as ->. f_equal. lia.
      - right. replace (m + Datatypes.S q)%nat with (Datatypes.S m + q)%nat by lia. apply IH, E. }
    specialize (X _ 1%nat _ T). replace (Z.of_nat (1 + Z.to_nat (j - 1))) with j in X by lia. exact X. }
  specialize (H _ I). cbn beta iota in H. pose proof (ahead_dec _ _ _ _ _ _ H C) as Q. cbn beta in Q.
  destruct (f (hd TOKEN_EOF w)); [f_equal; lia | discriminate].
Qed.

(** ** Decided: [completes], along a given choice of transitions *)
Fixpoint follow_path (a : atn) (p : position) (l : list nat) : option (list Z * position) :=
  match l with
  | [] => Some ([], p)
  | k :: l =>
      match state_at a (fst p) with
      | None => None
      | Some s =>
          if stop_b s then match snd p with [] => None | f :: st => follow_path a (f, st) l end
          else match nth_error (st_trans s) k with
               | Some (RuleTr g f _ _) => follow_path a (g, f :: snd p) l
               | Some (Atom g x) => match follow_path a (g, snd p) l with Some (w, q) => Some (x :: w, q) | None => None end
               | Some (Epsilon g _) => follow_path a (g, snd p) l
               | _ => None
               end
      end
  end.
Lemma path_run a : forall l p w q, follow_path a p l = Some (w, q) -> run a p w q.
Proof.
  induction l as [|k l IH]; intros (i, st) w q H; cbn in H; [injection H as <- <-; constructor|].
  destruct (state_at a i) as [s|] eqn:E; [|discriminate]. destruct (stop_b s) eqn:St.
  - apply stop_dec in St. destruct st as [|f st]; [discriminate|]. eapply run_move; [eapply move_return; eauto | eauto].
  - assert (N : ~ Ll1Spec.is_stop s) by (intros Q; apply stop_dec in Q; congruence).
    destruct (nth_error (st_trans s) k) as [t|] eqn:T; [|discriminate]. apply nth_error_In in T. destruct t; try discriminate.
    + destruct (follow_path a _ l) as [[u r]|] eqn:F; [|discriminate]. injection H as <- <-.
      eapply run_take; [eapply (take_token a _ i st s _ E N T); reflexivity | apply IH, F].
    + eapply run_move; [eapply move_call; eauto | apply IH, H].
    + eapply run_move; [eapply (move_epsilon a i st s _ E N T); [intros [] | reflexivity] | apply IH, H].
Qed.

(** ** Tokens A = 1, B = 2, C = 3, D = 4.
      rule 0   s : ( C r B | D r )* EOF ;      (decision 0, state 3; the loop: decision 1, state 2)
      rule 1   r : A | A B ;                   (decision 2, state 18)
    The loop and its block are decided by lookahead tests, [r] by [adaptive_predict]:
    whether a B after the A belongs to [r] depends on the caller and on what follows. *)
Definition items_atn : atn := Atn [3; 2; 18] PARSER [] 4 [] [0; 16] [1; 17] [] [
  sst 0 0 2 (RuleStartState 1 false) [Epsilon 2 (-1)];
  sst 0 1 7 RuleStopState [];
  sst 0 2 10 (DecisionState 1 false (StarLoopEntry 13 false)) [Epsilon 3 (-1); Epsilon 14 (-1)];
  sst 0 3 5 (DecisionState 0 false (BlockStartState 12 StarBlockStart)) [Epsilon 4 (-1); Epsilon 7 (-1)];
  sst 0 4 1 BasicState [Atom 5 3];
  sst 0 5 1 BasicState [RuleTr 16 6 1 0];
  sst 0 6 1 BasicState [Atom 10 2];
  sst 0 7 1 BasicState [Atom 8 4];
  sst 0 8 1 BasicState [RuleTr 16 11 1 0];
  sst 0 9 1 BasicState [Epsilon 1 (-1)];
  sst 0 10 1 BasicState [Epsilon 12 (-1)];
  sst 0 11 1 BasicState [Epsilon 12 (-1)];
  sst 0 12 8 (BlockEndState 3) [Epsilon 13 (-1)];
  sst 0 13 9 StarLoopbackState [Epsilon 2 (-1)];
  sst 0 14 12 (LoopEndState 13) [Epsilon 15 (-1)];
  sst 0 15 1 BasicState [Atom 9 (-1)];
  sst 1 16 2 (RuleStartState 17 false) [Epsilon 18 (-1)];
  sst 1 17 7 RuleStopState [Epsilon 6 (-1); Epsilon 11 (-1)];
  sst 1 18 3 (DecisionState 2 false (BlockStartState 22 BasicBlockStart)) [Epsilon 19 (-1); Epsilon 20 (-1)];
  sst 1 19 1 BasicState [Atom 22 1];
  sst 1 20 1 BasicState [Atom 21 1];
  sst 1 21 1 BasicState [Atom 22 2];
  sst 1 22 8 (BlockEndState 18) [Epsilon 17 (-1)]].
(** what the tool generates around the matching (as in tests/gen/csvparser.rs 334-392) *)
Definition items_plan (from i : Z) : list call :=
  if i =? 0 then [CAlt None]
  else if i =? 2 then (if from =? 13 then [CSetState 13; CSync; CLook 1] else [CSetState 2; CSync; CLook 1])
  else if i =? 3 then [CSetState 3; CSync; CLook 1]
  else if i =? 18 then [CSetState 18; CSync]
  else if (i =? 19) || (i =? 20) then [CAlt None]
  else [].
Definition loop_test (x : Z) : option Z := if (x =? 3) || (x =? 4) then Some 1 else Some 2.
Definition block_test (x : Z) : option Z := if x =? 3 then Some 1 else if x =? 4 then Some 2 else None.
Definition items_switch (i : Z) : option (Z -> option Z) := if i =? 2 then Some loop_test else if i =? 3 then Some block_test else None.
Lemma items_simple : simple_grammar items_atn 0.
Proof. apply simple_dec. vm_compute. reflexivity. Qed.
Lemma items_one_stop : one_stop items_atn.
Proof. refine (proj1 (proj2 (proj2 (proj2 (sound_dec items_atn _))))). vm_compute. reflexivity. Qed.
Lemma items_one_start : one_start items_atn.
Proof. apply one_start_dec. vm_compute. reflexivity. Qed.
Lemma items_no_stall : no_stall items_atn.
Proof. apply no_stall_dec. vm_compute. reflexivity. Qed.
Lemma items_thin : thin_labels items_atn.
Proof. apply thin_dec. vm_compute. reflexivity. Qed.
Lemma items_decisions : decisions_ok items_atn items_switch.
Proof. apply decisions_dec. vm_compute. reflexivity. Qed.
Lemma items_switches : switches_ok items_atn 0 items_switch.
Proof.
  intros i f E stack conts w n j P V. unfold items_switch in E. destruct (Z.eqb_spec i 2) as [-> |N]; [|destruct (Z.eqb_spec i 3) as [-> |N']; [|discriminate]];
    injection E as <-; replace conts with (@nil Z) in V by (symmetry; eapply main_alone; [apply items_simple | exact P]);
    [apply (test_dec items_atn 40 2 loop_test w n j) | apply (test_dec items_atn 40 3 block_test w n j)]; [vm_compute; reflexivity | exact V | vm_compute; reflexivity | exact V].
Qed.
Lemma items_planned : plan_ok items_atn items_plan.
Proof.
  intros from i. unfold items_plan. destruct (i =? 0); [repeat constructor|]. destruct (Z.eqb_spec i 2) as [-> |].
  - destruct (from =? 13); (apply plan_sync; [|repeat constructor]; [| lia]).
    + eapply reaches_move; [apply reaches_here|]. eapply (move_epsilon items_atn 13 [] _ (Epsilon 2 (-1))); [reflexivity | discriminate | left; reflexivity | intros [] | reflexivity].
    + apply reaches_here.
  - destruct (Z.eqb_spec i 3) as [-> |]; [apply plan_sync; [apply reaches_here | repeat constructor]; lia|].
    destruct (Z.eqb_spec i 18) as [-> |]; [apply plan_sync; [apply reaches_here | constructor]|].
    destruct ((i =? 19) || (i =? 20)); repeat constructor.
Qed.
Lemma items_kinds : plan_kinds items_plan.
Proof.
  intros from i. unfold items_plan. destruct (i =? 0); [repeat constructor|]. destruct (i =? 2); [destruct (from =? 13); repeat constructor|].
  destruct (i =? 3); [repeat constructor|]. destruct (i =? 18); [repeat constructor|]. destruct (_ || _); repeat constructor.
Qed.
(** the DFAs of a parser that has not been used *)
Definition new_dfas (a : atn) : list pdfa := map (fun _ => dfa_new unit unit false) (decision_to_state a).
Lemma new_dfas_ok a order alt_order hash dhash share : dfas_ok a order alt_order hash dhash share (new_dfas a).
Proof.
  split; [apply map_length|]. intros k start rule d _ V.
  assert (d = dfa_new unit unit false) as ->.
  { unfold vget, new_dfas in V. destruct (k <? 0); [discriminate|]. apply nth_error_In in V. apply in_map_iff in V as (x & <- & _). reflexivity. }
  split; [apply past_new | apply history_new].
Qed.
Notation items_parse l := (parse (common_seek (source l) 0 50) items_atn demo_names (fun _ _ _ _ => true) plain_order plain_alts one_hash no_dhash no_share
  (fun _ => 0%nat) LL items_plan items_switch (fun _ => false)).

(** ** Tokens A = 1, B = 2.
      rule 0   s : A r EOF ;
      rule 1   r : | B ;                       (decision 0, state 8) *)
Definition opt_atn : atn := Atn [8] PARSER [] 2 [] [0; 6] [1; 7] [] [
  sst 0 0 2 (RuleStartState 1 false) [Epsilon 2 (-1)];
  sst 0 1 7 RuleStopState [];
  sst 0 2 1 BasicState [Atom 3 1];
  sst 0 3 1 BasicState [RuleTr 6 4 1 0];
  sst 0 4 1 BasicState [Atom 5 (-1)];
  sst 0 5 1 BasicState [Epsilon 1 (-1)];
  sst 1 6 2 (RuleStartState 7 false) [Epsilon 8 (-1)];
  sst 1 7 7 RuleStopState [Epsilon 4 (-1)];
  sst 1 8 3 (DecisionState 0 false (BlockStartState 11 BasicBlockStart)) [Epsilon 9 (-1); Epsilon 10 (-1)];
  sst 1 9 1 BasicState [Epsilon 11 (-1)];
  sst 1 10 1 BasicState [Atom 11 2];
  sst 1 11 8 (BlockEndState 8) [Epsilon 7 (-1)]].
Definition opt_plan (from i : Z) : list call := if i =? 8 then [CSetState 8; CSync] else [].
Definition no_switch (i : Z) : option (Z -> option Z) := None.

(** ** Nine token types.
      rule 0   s : 'a' | 'c' | 'e' | . ;       (decision 0, state 2) *)
Definition any_atn : atn := Atn [2] PARSER [] 9 [] [0] [1] [] [
  sst 0 0 2 (RuleStartState 1 false) [Epsilon 2 (-1)];
  sst 0 1 7 RuleStopState [];
  sst 0 2 3 (DecisionState 0 false (BlockStartState 7 BasicBlockStart)) [Epsilon 3 (-1); Epsilon 4 (-1); Epsilon 5 (-1); Epsilon 6 (-1)];
  sst 0 3 1 BasicState [Atom 7 1];
  sst 0 4 1 BasicState [Atom 7 3];
  sst 0 5 1 BasicState [Atom 7 5];
  sst 0 6 1 BasicState [Wildcard 7];
  sst 0 7 8 (BlockEndState 2) [Epsilon 1 (-1)]].
Definition any_plan (from i : Z) : list call := if i =? 2 then [CSetState 2; CSync] else [].

(** the conditions on a generated parser without lookahead tests *)
Definition generated_b (a : atn) (main : Z) : bool :=
  linked_b a && main_b a main && sound_b a && one_start_b a && quiet_b a && decisions_b a no_switch.
Lemma generated_dec a main : generated_b a main = true ->
  simple_grammar a main /\ one_stop a /\ one_start a /\ no_stall a /\ decisions_ok a no_switch /\ switches_ok a main no_switch.
Proof.
  unfold generated_b. rewrite !andb_true_iff. intros (((((A1 & A2) & B) & C) & D) & E).
  split; [apply simple_dec; rewrite A1, A2; reflexivity|]. split; [apply (sound_dec a B)|]. split; [apply one_start_dec, C|]. split; [apply no_stall_dec, D|].
  split; [apply decisions_dec, E|]. intros i f Q. discriminate.
Qed.
