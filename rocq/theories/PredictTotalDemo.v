(** Small grammars for the theorems about predictions that come back (C85), and checks of the
    conditions those theorems put on a grammar. *)
From Coq Require Import ZArith List Bool Lia ZifyBool Relations.
From Verif Require Import Outcome IntervalSetModel AtnModel AtnSpec TokenStreamModel TokenStreamSpec.
From Verif Require Import PredContextModel SemContextModel ConfigSetModel DfaModel Ll1Model Ll1Spec ParserModel ParserDemo PredictModel PredictDemo PredictLLSpec PredictLLDemo PredictTotalSpec.
Import ListNotations.
Local Open Scope Z_scope.

(** ** [sound_grammar], decided for grammars without sets *)
Definition target_b (a : atn) (s : atn_state) (t : transition) : bool :=
  exists_b a (get_target t) &&
  match t with
  | RuleTr _ f _ _ => exists_b a f && (rule_of a f =? st_rule s)
  | SetTr _ _ | NotSet _ _ => false
  | _ => rule_of a (get_target t) =? st_rule s
  end.
Definition entered_b (a : atn) (s : atn_state) : bool :=
  match st_type s with
  | DecisionState _ _ (StarLoopEntry _ true) =>
      match st_trans s with
      | [] => false
      | t :: _ => match state_at a (get_target t) with
                  | Some d => match st_type d with DecisionState _ _ (BlockStartState _ _) => true | _ => false end
                  | None => false
                  end
      end
  | _ => true
  end.
Definition sstate_b (a : atn) (x : Z * atn_state) : bool :=
  let '(i, s) := x in
  (st_number s =? i) && entered_b a s &&
  forallb (fun t => Bool.eqb (is_epsilon t) (st_eps_only s)) (st_trans s) &&
  match st_trans s with [] => negb (st_eps_only s) | _ => true end &&
  (if stop_b s then forallb (fun t => match t with Epsilon f _ => exists_b a f | _ => false end) (st_trans s)
   else forallb (target_b a s) (st_trans s)).
Definition one_b (a : atn) : bool :=
  forallb (fun x => forallb (fun y => negb (stop_b (snd x)) || negb (stop_b (snd y)) || negb (st_rule (snd x) =? st_rule (snd y)) || (fst x =? fst y)) (indexed a)) (indexed a).
Definition sound_b (a : atn) : bool := (Z.of_nat (length (states a)) <=? 2147483647) && forallb (sstate_b a) (indexed a) && one_b a.
Lemma sound_dec a : sound_b a = true -> sound_grammar a.
Proof.
  unfold sound_b. rewrite !andb_true_iff, forallb_forall. intros ((Len & H) & One).
  assert (X : forall i s, state_at a i = Some s -> sstate_b a (i, s) = true) by (intros i s E; apply H, in_indexed, E). clear H.
  unfold sstate_b in X.
  assert (Y : forall i s, state_at a i = Some s -> st_number s = i /\ entered_b a s = true /\
    (forall t, In t (st_trans s) -> is_epsilon t = st_eps_only s) /\ (st_trans s = [] -> st_eps_only s = false) /\
    (Ll1Spec.is_stop s -> (forall t, In t (st_trans s) -> match t with Epsilon f _ => exists_b a f = true | _ => False end)) /\
    (~ Ll1Spec.is_stop s -> forall t, In t (st_trans s) -> target_b a s t = true)).
  { intros i s E. specialize (X _ _ E). rewrite !andb_true_iff, !forallb_forall in X. destruct X as ((((X1 & X3) & X4) & X5) & X6).
    split; [lia|]. split; [exact X3|]. split; [intros t I; apply eqb_prop, X4, I|]. split; [intros Q; rewrite Q in X5; destruct (st_eps_only s); auto; discriminate|]. split.
    - intros St. apply stop_dec in St. rewrite St, !forallb_forall in X6.
      intros t I. specialize (X6 _ I). destruct t; auto; discriminate.
    - intros St t I. destruct (stop_b s) eqn:Q; [apply stop_dec in Q; contradiction|]. rewrite forallb_forall in X6. apply X6, I. }
  clear X. split; [|split; [|split; [|split]]].
  - split; [lia|]. intros i s E. destruct (Y _ _ E) as (Y1 & _ & _ & _ & _ & Y7). split; [exact Y1|]. intros St t I. specialize (Y7 St _ I).
    unfold target_b in Y7. apply andb_true_iff in Y7 as (T1 & T2). split; [apply exists_dec, T1|].
    destruct t; try discriminate; (split; [exact Logic.I|]); try lia. apply andb_true_iff in T2 as (T2 & T3). split; [apply exists_dec, T2 | lia].
  - intros i s E. destruct (Y _ _ E) as (_ & _ & Y4 & Y5 & _). auto.
  - intros i s E St t I. destruct (Y _ _ E) as (_ & _ & _ & _ & Y6 & _). specialize (Y6 St _ I).
    destruct t; try contradiction. eexists _, _. split; [reflexivity | apply exists_dec, Y6].
  - intros i s j s' E St E' St' R. unfold one_b in One. rewrite forallb_forall in One. specialize (One _ (in_indexed _ _ _ E)). rewrite forallb_forall in One.
    specialize (One _ (in_indexed _ _ _ E')). apply stop_dec in St, St'. cbn [fst snd] in One. rewrite St, St', R, Z.eqb_refl in One. cbn in One. lia.
  - intros i s n g l E T. destruct (Y _ _ E) as (_ & Y3 & _). unfold entered_b in Y3. rewrite T in Y3. destruct (st_trans s) as [|t ts]; [discriminate|].
    destruct (state_at a (get_target t)) as [d|] eqn:Ed; [|discriminate]. destruct (st_type d) as [| | | | | |? ? k|] eqn:Td; try discriminate.
    destruct k; try discriminate. eexists t, ts, d, _, _, _, _. eauto.
Qed.

(** ** [no_stall], by numbering the states so that what is matched without a token goes downwards *)
Definition quiet_next (t : transition) : list Z :=
  match t with
  | RuleTr g f _ _ => [g; f]
  | Atom g x => if x =? TOKEN_EOF then [g] else []
  | Range g lo hi => if (lo <=? TOKEN_EOF) && (TOKEN_EOF <=? hi) then [g] else []
  | SetTr g _ | NotSet g _ => [g]
  | Wildcard _ => []
  | t => [get_target t]
  end.
Definition rank_of (l : list nat) (i : Z) : nat := nth (Z.to_nat i) l O.
Definition down_b (a : atn) (l : list nat) : bool :=
  forallb (fun x => stop_b (snd x) || forallb (fun t => forallb (fun j => Nat.ltb (rank_of l j) (rank_of l (fst x))) (quiet_next t)) (st_trans (snd x))) (indexed a).
(** the numbering: the longest way without a token *)
Fixpoint ranks (a : atn) (n : nat) : list nat :=
  match n with
  | O => []
  | Datatypes.S n => let l := ranks a n in
      map (fun s => if stop_b s then O else fold_right Nat.max O (map (fun j => Datatypes.S (rank_of l j)) (flat_map quiet_next (st_trans s)))) (states a)
  end.
Definition quiet_b (a : atn) : bool := down_b a (ranks a (Datatypes.S (length (states a)))).
Lemma no_stall_dec a : quiet_b a = true -> no_stall a.
Proof.
  unfold quiet_b. generalize (ranks a (Datatypes.S (length (states a)))). intros l H.
  assert (D : forall i s t j, state_at a i = Some s -> ~ Ll1Spec.is_stop s -> In t (st_trans s) -> In j (quiet_next t) -> (rank_of l j < rank_of l i)%nat).
  { intros i s t j E N I J. unfold down_b in H. rewrite forallb_forall in H. specialize (H _ (in_indexed _ _ _ E)). cbn [fst snd] in H.
    rewrite (stop_no _ N) in H. cbn in H. rewrite forallb_forall in H. specialize (H _ I). rewrite forallb_forall in H. specialize (H _ J). apply PeanoNat.Nat.ltb_lt, H. }
  clear H.
  assert (Q : forall p q k, quiet a p q -> Forall (fun j => (rank_of l j < k)%nat) (snd p) -> (rank_of l (fst p) <= k)%nat -> (snd p <> [] -> rank_of l (fst p) < k)%nat ->
    Forall (fun j => (rank_of l j < k)%nat) (fst q :: snd q)).
  { intros p q k [M|T] F Lp Ln.
    - destruct M as [i st s t E N I C K|i st s g f r pr E N I|i f st s E St]; cbn [fst snd] in *.
      + constructor; [|exact F]. enough (rank_of l (get_target t) < rank_of l i)%nat by lia. eapply (D _ _ t); eauto.
        destruct t; cbn in *; auto; try discriminate; destruct C; exact Logic.I.
      + assert (rank_of l g < rank_of l i)%nat by (eapply (D _ _ _ g); eauto; cbn; auto).
        assert (rank_of l f < rank_of l i)%nat by (eapply (D _ _ _ f); eauto; cbn; auto). constructor; [lia|]. constructor; [lia | exact F].
      + inversion F; subst. constructor; assumption.
    - destruct T as [i st s t E N I K]; cbn [fst snd] in *. constructor; [|exact F]. enough (rank_of l (get_target t) < rank_of l i)%nat by lia. eapply (D _ _ t); eauto.
      destruct t; cbn in *; auto; try contradiction; unfold TOKEN_EOF in *.
      + rewrite <- K. cbn. auto.
      + replace ((start <=? -1) && (-1 <=? stop)) with true by lia. cbn. auto.
      + lia. }
  assert (T : forall p q, clos_trans_n1 position (quiet a) p q -> snd p = [] -> Forall (fun j => (rank_of l j < rank_of l (fst p))%nat) (fst q :: snd q)).
  { induction 1 as [q M|q r M _ IH]; intros E.
    - apply (Q _ _ _ M); [rewrite E; constructor | lia | contradiction].
    - specialize (IH E). inversion IH; subst. apply (Q _ _ _ M); [assumption | lia | intros _; assumption]. }
  intros i conts C. apply clos_trans_tn1 in C. specialize (T _ _ C eq_refl). inversion T; subst. cbn in *. lia.
Qed.

(** ** Tokens NUM = 1, '+' = 2, '*' = 3.
      rule 0   s : e EOF ;
      rule 1   e : e '*' e | e '+' e | {p}? NUM | NUM ;
    as ANTLR rewrites it: a primary (decision 0, state 7), then operators while their
    precedence allows (decision 2, state 13, a precedence decision). *)
Definition expr_atn : atn := Atn [7; 14; 13] PARSER [] 3 [] [0; 5] [1; 6] [] [
  sst 0 0 2 (RuleStartState 1 false) [Epsilon 2 (-1)];
  sst 0 1 7 RuleStopState [];
  sst 0 2 1 BasicState [RuleTr 5 3 1 0];
  sst 0 3 1 BasicState [Atom 4 (-1)];
  sst 0 4 1 BasicState [Epsilon 1 (-1)];
  sst 1 5 2 (RuleStartState 6 true) [Epsilon 7 (-1)];
  sst 1 6 7 RuleStopState [Epsilon 3 1; Epsilon 19 (-1); Epsilon 20 (-1)];
  sst 1 7 3 (DecisionState 0 false (BlockStartState 12 BasicBlockStart)) [Epsilon 8 (-1); Epsilon 9 (-1)];
  sst 1 8 1 BasicState [PredicateTr 10 false 1 0];
  sst 1 9 1 BasicState [Atom 12 1];
  sst 1 10 1 BasicState [Atom 11 1];
  sst 1 11 1 BasicState [Epsilon 12 (-1)];
  sst 1 12 8 (BlockEndState 7) [Epsilon 13 (-1)];
  sst 1 13 10 (DecisionState 2 false (StarLoopEntry 22 true)) [Epsilon 14 (-1); Epsilon 23 (-1)];
  sst 1 14 5 (DecisionState 1 false (BlockStartState 21 StarBlockStart)) [Epsilon 15 (-1); Epsilon 17 (-1)];
  sst 1 15 1 BasicState [PrecedenceTr 16 4];
  sst 1 16 1 BasicState [Atom 24 3];
  sst 1 17 1 BasicState [PrecedenceTr 18 3];
  sst 1 18 1 BasicState [Atom 25 2];
  sst 1 19 1 BasicState [Epsilon 21 (-1)];
  sst 1 20 1 BasicState [Epsilon 21 (-1)];
  sst 1 21 8 (BlockEndState 14) [Epsilon 22 (-1)];
  sst 1 22 9 StarLoopbackState [Epsilon 13 (-1)];
  sst 1 23 12 (LoopEndState 22) [Epsilon 6 (-1)];
  sst 1 24 1 BasicState [RuleTr 5 19 1 5];
  sst 1 25 1 BasicState [RuleTr 5 20 1 4]].
Lemma expr_sound : sound_grammar expr_atn.
Proof. apply sound_dec. vm_compute. reflexivity. Qed.
Lemma expr_no_stall : no_stall expr_atn.
Proof. apply no_stall_dec. vm_compute. reflexivity. Qed.
Lemma caller_no_stall : no_stall caller_atn.
Proof. apply no_stall_dec. vm_compute. reflexivity. Qed.
Lemma caller_sound : sound_grammar caller_atn.
Proof. apply sound_dec. vm_compute. reflexivity. Qed.

(** ** Token A = 1.
      rule 0   s : ( | A )* ;                  (decision 0, state 2)
    The loop can be repeated without matching anything. *)
Definition stall_atn : atn := Atn [2; 3] PARSER [] 1 [] [0] [1] [] [
  sst 0 0 2 (RuleStartState 1 false) [Epsilon 2 (-1)];
  sst 0 1 7 RuleStopState [];
  sst 0 2 10 (DecisionState 0 false (StarLoopEntry 6 false)) [Epsilon 3 (-1); Epsilon 7 (-1)];
  sst 0 3 5 (DecisionState 1 false (BlockStartState 5 StarBlockStart)) [Epsilon 5 (-1); Epsilon 4 (-1)];
  sst 0 4 1 BasicState [Atom 5 1];
  sst 0 5 8 (BlockEndState 3) [Epsilon 6 (-1)];
  sst 0 6 9 StarLoopbackState [Epsilon 2 (-1)];
  sst 0 7 12 (LoopEndState 6) [Epsilon 1 (-1)]].
Lemma stall_sound : sound_grammar stall_atn.
Proof. apply sound_dec. vm_compute. reflexivity. Qed.
