(** Derivations in which the loop of operators is left when it should be: their trees. *)
From Coq Require Import ZArith List Bool Lia.
From Verif Require Import Outcome IntervalSetModel PredContextModel AtnModel AtnSpec Ll1Model Ll1Spec ParserModel ParserSpec RecSpec RecTreeProofs RecBuildSpec OperatorSpec OrderSpec.
Import ListNotations.
Local Open Scope Z_scope.

Section Directed.
  Variable a : atn.
  Variable plan : Z -> Z -> list call.
  Variable recursive : Z -> bool.
  Variable holds : Z -> Z -> Prop.
  Variable entry ops out : Z.
  Variable level : Z -> option Z.
  Notation binds := (binds level).
  Definition right_turn (q i g : Z) (w : list Z) : Prop := i = entry -> (g = ops <-> binds q (hd TOKEN_EOF w)).
  (** [builds], with the token types ahead at the beginning and at the end *)
  Inductive directed : Z -> Z -> Z -> Z -> content -> list Z -> list tok -> content -> list Z -> Prop :=
  | di_end : forall q rule from i s x w, state_at a i = Some s -> Ll1Spec.is_stop s ->
      directed q rule from i x w [] (planned rule (plan from i) x) w
  | di_token : forall q rule from i t x k w u y w', leads a i t -> symbols t 1 (max_token_type a) (t_type k) -> t_type k = hd TOKEN_EOF w ->
      directed q rule i (get_target t) (with_kid (planned rule (plan from i) x) (Leaf k)) (tl w) u y w' -> directed q rule from i x w (k :: u) y w'
  | di_epsilon : forall q rule from i t x w u y w', leads a i t -> match t with Epsilon _ _ | Action _ _ _ _ _ => True | _ => False end ->
      right_turn q i (get_target t) w ->
      directed q rule i (get_target t) (planned rule (plan from i) x) w u y w' -> directed q rule from i x w u y w'
  | di_precedence : forall q rule from i g k x w u y w', leads a i (PrecedenceTr g k) -> q <= k ->
      directed q rule i g (planned rule (plan from i) x) w u y w' -> directed q rule from i x w u y w'
  | di_predicate : forall q rule from i g d r k x w u y w', leads a i (PredicateTr g d r k) -> holds r k ->
      directed q rule i g (planned rule (plan from i) x) w u y w' -> directed q rule from i x w u y w'
  | di_rule : forall q rule from i g follow r prec x w v z w1 u y w', leads a i (RuleTr g follow r prec) ->
      directed (if recursive r then prec else q) r (-1) g (0%nat, []) w v z w1 ->
      directed q rule i follow (with_kid (planned rule (plan from i) x) (Node r (fst z) (snd z))) w1 u y w' ->
      directed q rule from i x w (v ++ u) y w'.

  Lemma directed_builds q rule from i x w u y w' : directed q rule from i x w u y w' -> builds a plan recursive holds q rule from i x u y.
  Proof. induction 1; [eapply bu_end; eauto | eapply bu_token; eauto | eapply bu_epsilon; eauto | eapply bu_precedence; eauto | eapply bu_predicate; eauto | eapply bu_rule; eauto]. Qed.

  (** *** Trees *)
  Variable rule start : Z.
  Variable operand : Z -> Z.
  Variable prefix : Z -> Z.
  Variable where_ : Z -> place.
  Variable stage_ : Z -> stage.
  Variable tests : Z -> bool.
  Hypothesis WF : well_formed a.
  Hypothesis NR : named_rules a.
  Hypothesis OL : operator_loop a entry ops out level where_.
  Hypothesis BR : operator_rule a plan recursive rule start operand prefix where_ stage_ tests.
  Notation open_end := (open_end rule).
  Notation parts := (parts rule).
  Notation left_edge := (left_edge rule).
  Notation right_edge := (right_edge rule operand prefix).
  Notation nested := (nested rule level operand prefix).
  Notation asks := (asks operand prefix).
  Notation onward := (onward where_ stage_).
  Definition fine (l : list tree) : Prop := Forall nested l.

  Lemma open_app kids r k l : open_end (kids ++ [Node r k l]) = if r =? rule then Some (Node r k l) else None.
  Proof. unfold OrderSpec.open_end. rewrite rev_app_distr. reflexivity. Qed.
  Lemma open_leaf kids o : open_end (kids ++ [Leaf o]) = None.
  Proof. unfold OrderSpec.open_end. rewrite rev_app_distr. reflexivity. Qed.
  Lemma open_cons x kids : kids <> [] -> open_end (x :: kids) = open_end kids.
  Proof. intros N. unfold OrderSpec.open_end. cbn [rev]. destruct (rev kids) as [|y l] eqn:E; [|reflexivity]. destruct N. apply (f_equal (@rev tree)) in E. rewrite rev_involutive in E. exact E. Qed.
  Lemma open_tail x kids : open_end (x :: kids) = None -> open_end kids = None.
  Proof. destruct kids as [|y kids]; [reflexivity|]. intros H. rewrite <- H. symmetry. apply open_cons. discriminate. Qed.

  Lemma parts_rule r k kids l o t : parts (Node r k kids) l o t -> r = rule.
  Proof. intros H. inversion H; reflexivity. Qed.
  Lemma parts_kind (k k' : nat) kids l o r : parts (Node rule k kids) l o r -> parts (Node rule k' kids) l o r.
  Proof. intros H. inversion H; subst; constructor; assumption. Qed.
  Lemma edge_kind (k k' : nat) kids x : (left_edge (Node rule k kids) x -> left_edge (Node rule k' kids) x) /\ (right_edge (Node rule k kids) x -> right_edge (Node rule k' kids) x).
  Proof.
    split; intros H; inversion H; subst; [eapply left_here | eapply left_down | eapply right_here | eapply right_down]; eauto using parts_kind.
  Qed.
  Definition well (l : option tree) (o : tok) (r : option tree) : Prop :=
    (forall l', l = Some l' -> (exists k, level (t_type o) = Some k) /\ forall q, right_edge l' q -> ~ binds q (t_type o)) /\
    (forall r', r = Some r' -> forall x, left_edge r' x -> binds (asks l o) x).
  Lemma nested_node r k kids : fine kids -> (forall l o t, parts (Node r k kids) l o t -> well l o t) -> nested (Node r k kids).
  Proof.
    intros F H t l o t' W Op. inversion W; subst; [apply H, Op|].
    match goal with I : In ?c kids |- _ => exact (proj1 (Forall_forall _ _) F _ I t l o t' ltac:(assumption) Op) end.
  Qed.
  Lemma other_nested r k kids : r <> rule -> fine kids -> nested (Node r k kids).
  Proof. intros N F. apply nested_node; [exact F|]. intros l o t P. destruct (N (parts_rule _ _ _ _ _ _ P)). Qed.
  Lemma nested_kind (k k' : nat) kids : nested (Node rule k kids) -> nested (Node rule k' kids).
  Proof.
    intros N t l o r W Op. inversion W; subst.
    - exact (N _ _ _ _ (within_here _) (parts_kind k' k _ _ _ _ Op)).
    - eapply N; [eapply within_child; eauto | exact Op].
  Qed.
  Lemma nested_kids r k kids : nested (Node r k kids) -> fine kids.
  Proof. intros N. apply Forall_forall. intros c I t l o t' W Op. eapply N; [eapply within_child; eauto | exact Op]. Qed.
  Lemma leaf_nested k : nested (Leaf k).
  Proof. intros t l o r W Op. inversion W; subst. inversion Op. Qed.

  (** an expression read at level [q], with [x] as the next token *)
  Record good (q : Z) (kids : list tree) (x : Z) : Prop := {
    g_nested : nested (Node rule 0 kids);
    g_left : forall z, left_edge (Node rule 0 kids) z -> binds q z;
    g_right : forall p, right_edge (Node rule 0 kids) p -> ~ binds p x
  }.
  (** an alternative of which a part was read *)
  Definition header (q : Z) (op : option Z) (kids : list tree) : Prop :=
    (exists kl l o rest, kids = Node rule kl l :: Leaf o :: rest /\ op = Some (operand (t_type o)) /\ binds q (t_type o) /\ good q l (t_type o)) \/
    (exists o rest, kids = Leaf o :: rest /\ op = Some (prefix (t_type o))) \/
    (exists r k l rest, kids = Node r k l :: rest /\ r <> rule /\ op = None).
  Record partial (q : Z) (op : option Z) (closed : bool) (kids : list tree) : Prop := {
    pt_header : header q op kids;
    pt_fine : fine kids;
    pt_closed : closed = true -> open_end kids = None
  }.
  Lemma header_app q op kids t : header q op kids -> header q op (kids ++ [t]).
  Proof.
    intros [(kl & l & o & rest & -> & E)|[(o & rest & -> & E)|(r & k & l & rest & -> & E)]].
    - left. exists kl, l, o, (rest ++ [t]). auto.
    - right; left. exists o, (rest ++ [t]). auto.
    - right; right. exists r, k, l, (rest ++ [t]). auto.
  Qed.
  Lemma fine_app kids t : fine kids -> nested t -> fine (kids ++ [t]).
  Proof. intros F N. apply Forall_app. split; [exact F|]. apply Forall_cons; [exact N|apply Forall_nil]. Qed.
  Lemma closed_good q op kids x : partial q op true kids -> good q kids x.
  Proof.
    intros [H F C]. specialize (C eq_refl).
    destruct H as [(kl & l & o & rest & -> & _ & B & G)|[(o & rest & -> & _)|(r & k & l & rest & -> & N & _)]].
    - assert (E : open_end rest = None) by (apply open_tail in C; apply open_tail in C; exact C).
      assert (Inv : forall l' o' r', parts (Node rule 0 (Node rule kl l :: Leaf o :: rest)) l' o' r' -> l' = Some (Node rule kl l) /\ o' = o /\ r' = None) by (intros l' o' r' P; inversion P; subst; auto).
      constructor.
      + apply nested_node; [exact F|]. intros l' o' r' P. apply Inv in P as (-> & -> & ->). split; [|discriminate]. intros l' El. injection El as <-.
        split; [destruct B as (j & Ej & _); eauto|]. intros p Rp. apply (g_right _ _ _ G). apply (proj2 (edge_kind kl 0 l p)), Rp.
      + intros z H. inversion H as [t l' o' r' P|t l' o' r' z' P Hz]; subst; apply Inv in P as (El & -> & _); [exact B|]. injection El as ->. apply (g_left _ _ _ G). apply (proj1 (edge_kind kl 0 l z)), Hz.
      + intros p H. inversion H as [t l' o' r' P|t l' o' r' z' P Hz]; subst; apply Inv in P as (_ & _ & El); discriminate.
    - assert (E : open_end rest = None) by (apply open_tail in C; exact C).
      assert (Inv : forall l' o' r', ~ parts (Node rule 0 (Leaf o :: rest)) l' o' r') by (intros l' o' r' P; inversion P; subst; congruence).
      constructor; [apply nested_node; [exact F|]; intros l' o' r' P; destruct (Inv _ _ _ P) | |]; intros z H; inversion H; subst; destruct (Inv _ _ _ ltac:(eassumption)).
    - assert (Inv : forall l' o' r', ~ parts (Node rule 0 (Node r k l :: rest)) l' o' r') by (intros l' o' r' P; inversion P; subst; contradiction).
      constructor; [apply nested_node; [exact F|]; intros l' o' r' P; destruct (Inv _ _ _ P) | |]; intros z H; inversion H; subst; destruct (Inv _ _ _ ltac:(eassumption)).
  Qed.
  Lemma called_good q p c kids kr r x : partial q (Some p) c kids -> good p r x -> ~ binds p x -> good q (kids ++ [Node rule kr r]) x.
  Proof.
    intros [H F _] R N. assert (F' : fine (kids ++ [Node rule kr r])) by (apply fine_app; [exact F | eapply nested_kind, R]).
    destruct H as [(kl & l & o & rest & -> & Ep & B & G)|[(o & rest & -> & Ep)|(r' & k & l & rest & -> & _ & Ep)]]; [| |discriminate]; injection Ep as ->; cbn [app] in *.
    - assert (Inv : forall l' o' r', parts (Node rule 0 (Node rule kl l :: Leaf o :: rest ++ [Node rule kr r])) l' o' r' -> l' = Some (Node rule kl l) /\ o' = o /\ r' = Some (Node rule kr r))
        by (intros l' o' r' P; inversion P; subst; rewrite open_app, Z.eqb_refl; auto).
      constructor.
      + apply nested_node; [exact F'|]. intros l' o' r' P. apply Inv in P as (-> & -> & ->). split.
        * intros l' El. injection El as <-. split; [destruct B as (j & Ej & _); eauto|]. intros q' Rq. apply (g_right _ _ _ G). apply (proj2 (edge_kind kl 0 l q')), Rq.
        * intros r' Er. injection Er as <-. intros z Lz. apply (g_left _ _ _ R). apply (proj1 (edge_kind kr 0 r z)), Lz.
      + intros z H. inversion H as [t l' o' r' P|t l' o' r' z' P Hz]; subst; apply Inv in P as (El & -> & _); [exact B|]. injection El as ->. apply (g_left _ _ _ G). apply (proj1 (edge_kind kl 0 l z)), Hz.
      + intros z H. inversion H as [t l' o' r' P|t l' o' r' z' P Hz]; subst; apply Inv in P as (-> & -> & Er); [exact N|]. injection Er as ->. apply (g_right _ _ _ R). apply (proj2 (edge_kind kr 0 r z)), Hz.
    - assert (Inv : forall l' o' r', parts (Node rule 0 (Leaf o :: rest ++ [Node rule kr r])) l' o' r' -> l' = None /\ o' = o /\ r' = Some (Node rule kr r)).
      { intros l' o' r' P. inversion P as [|k o1 rest1 r1 Eo]; subst. rewrite open_app, Z.eqb_refl in Eo. injection Eo as <-. auto. }
      constructor.
      + apply nested_node; [exact F'|]. intros l' o' r' P. apply Inv in P as (-> & -> & ->). split; [discriminate|].
        intros r' Er. injection Er as <-. intros z Lz. apply (g_left _ _ _ R). apply (proj1 (edge_kind kr 0 r z)), Lz.
      + intros z H. inversion H as [t l' o' r' P|t l' o' r' z' P Hz]; subst; apply Inv in P as (El & _); discriminate.
      + intros z H. inversion H as [t l' o' r' P|t l' o' r' z' P Hz]; subst; apply Inv in P as (-> & -> & Er); [exact N|]. injection Er as ->. apply (g_right _ _ _ R). apply (proj2 (edge_kind kr 0 r z)), Hz.
  Qed.

  (** *** The calls between matches *)
  Lemma planned_same r cs : filter is_next cs = [] -> forall x, snd (planned r cs x) = snd x.
  Proof.
    unfold planned. induction cs as [|c cs IH]; intros E x; [reflexivity|]. cbn [filter] in E. destruct (is_next c) eqn:Ec; [discriminate|]. cbn [fold_left]. rewrite (IH E).
    destruct c as [| | | | | | | |[]| | | | | |]; try discriminate; reflexivity.
  Qed.
  Lemma planned_next r cs : length (filter is_next cs) = 1%nat -> forall x, exists k, snd (planned r cs x) = [Node r k (snd x)].
  Proof.
    unfold planned. induction cs as [|c cs IH]; intros E x; [discriminate|]. cbn [filter] in E. destruct (is_next c) eqn:Ec; cbn [fold_left].
    - cbn in E. injection E as E. apply length_zero_iff_nil in E. fold (planned r cs (after r x c)). rewrite (planned_same r cs E). destruct c; try discriminate. cbn. eauto.
    - destruct (IH E (after r x c)) as (k & ->). assert (snd (after r x c) = snd x) as -> by (destruct c as [| | | | | | | |[]| | | | | |]; try discriminate; reflexivity). eauto.
  Qed.
  Lemma planned_fine r cs : forall x, (r <> rule \/ length (filter is_next cs) = 0%nat) -> fine (snd x) -> fine (snd (planned r cs x)).
  Proof.
    intros x H F. destruct H as [H|H]; [|apply length_zero_iff_nil in H; rewrite (planned_same _ _ H); exact F].
    unfold planned. revert x F. induction cs as [|c cs IH]; intros x F; [exact F|]. cbn [fold_left]. apply IH.
    destruct c as [| | | | | | | |[]| | | | | |]; try exact F; cbn; try exact F. apply Forall_cons; [|apply Forall_nil]. apply other_nested; assumption.
  Qed.

  (** *** The derivation *)
  Definition status (q i : Z) (kids : list tree) (w : list Z) : Prop :=
    (stage_ i = First /\ kids = []) \/
    (exists op c, stage_ i = Part op c /\ partial q op c kids) \/
    (where_ i = Return /\ good q kids (hd TOKEN_EOF w)) \/
    (where_ i = Enter /\ good q kids (hd TOKEN_EOF w) /\ binds q (hd TOKEN_EOF w)) \/
    (exists k kl l, where_ i = Operator k /\ kids = [Node rule kl l] /\ q <= k /\ good q l (hd TOKEN_EOF w)) \/
    (exists p, stage_ i = Call p /\ partial q (Some p) false kids) \/
    (where_ i = Leave /\ good q kids (hd TOKEN_EOF w) /\ ~ binds q (hd TOKEN_EOF w)).
  Lemma weaker q op c kids : partial q op c kids -> partial q op false kids.
  Proof. intros [H F _]. constructor; auto. discriminate. Qed.
  Lemma status_onward q op c i kids w : onward op c i -> partial q op c kids -> status q i kids w.
  Proof.
    intros [(c' & St & Hc)|[(p & -> & St)|(-> & W)]] P.
    - right; left. exists op, c'. split; [exact St|]. destruct P as [H F C]. constructor; auto.
    - right; right; right; right; right; left. exists p. split; [exact St|]. eapply weaker, P.
    - right; right; left. split; [exact W|]. eapply closed_good, P.
  Qed.

  (** what the calls at a state do to the node *)
  Lemma calls_next from i x : Ll1Spec.rule_of a i = rule -> tests i = true -> exists k, snd (planned rule (plan from i) x) = [Node rule k (snd x)].
  Proof. intros R E. apply planned_next. rewrite (or_next _ _ _ _ _ _ _ _ _ _ BR _ _ R), E. reflexivity. Qed.
  Lemma calls_same from i x : Ll1Spec.rule_of a i = rule -> tests i = false -> snd (planned rule (plan from i) x) = snd x.
  Proof. intros R E. apply planned_same. apply length_zero_iff_nil. rewrite (or_next _ _ _ _ _ _ _ _ _ _ BR _ _ R), E. reflexivity. Qed.
  Lemma not_tests i : where_ i <> Enter \/ stage_ i <> Other -> tests i = false.
  Proof. intros H. destruct (tests i) eqn:E; [|reflexivity]. destruct (or_not_tests _ _ _ _ _ _ _ _ _ _ BR _ E). tauto. Qed.

  Ltac cases St := destruct St as [(St & EK)|[(op & c & St & PK)|[(St & G)|[(St & G & B)|[(k & kl & l & St & EK & LE & G)|[(p & St & PK)|(St & G & B)]]]]]].
  Ltac same := rewrite calls_same; [|assumption|apply not_tests; (left; congruence) || (right; congruence)].

  Lemma step_silent q from i t x w : leads a i t -> silent t -> right_turn q i (get_target t) w -> Ll1Spec.rule_of a i = rule ->
    status q i (snd x) w -> status q (get_target t) (snd (planned rule (plan from i) x)) w.
  Proof.
    intros (s & Es & NS & HI) Si RT R St. cases St.
    - same. left. split; [|exact EK]. pose proof (proj2 (or_first _ _ _ _ _ _ _ _ _ _ BR _ _ Es St) _ HI) as H. destruct t; try contradiction; exact H.
    - same. apply (status_onward q op c); [|exact PK]. pose proof (proj2 (or_part _ _ _ _ _ _ _ _ _ _ BR _ _ _ _ Es St) _ HI) as H. destruct t; try contradiction; exact H.
    - same. destruct (Z.eq_dec i entry) as [->|NE].
      + destruct (ol_entry _ _ _ _ _ _ OL) as (s' & k & gr & back & o1 & o2 & Es' & _ & Et). rewrite Es in Es'. injection Es' as <-. rewrite Et in HI.
        destruct (ol_places _ _ _ _ _ _ OL) as (_ & P1 & P2). specialize (RT eq_refl). destruct HI as [<-|[<-|[]]]; cbn [get_target] in *.
        * right; right; right; left. split; [exact P1|]. split; [exact G|]. apply RT. reflexivity.
        * right; right; right; right; right; right. split; [exact P2|]. split; [exact G|]. intros B. apply RT in B. congruence.
      + right; right; left. split; [|exact G]. apply (ol_return _ _ _ _ _ _ OL _ _ _ Es St NE HI).
    - pose proof (or_tests _ _ _ _ _ _ _ _ _ _ BR _ _ _ Es St HI) as T. destruct (tests i) eqn:Et.
      + destruct T as (g & k & ->). contradiction.
      + rewrite calls_same by assumption. right; right; right; left. split; [|auto].
        destruct (ol_enter _ _ _ _ _ _ OL _ _ _ Es St HI) as [(g & o & -> & W)|(g & k & -> & W)]; [exact W|contradiction].
    - destruct (ol_operator _ _ _ _ _ _ OL _ _ _ _ Es St HI) as (P & _). destruct t; contradiction.
    - destruct (proj2 (or_call _ _ _ _ _ _ _ _ _ _ BR _ _ _ Es St) _ HI) as (f & -> & _). contradiction.
    - same. right; right; right; right; right; right. split; [|auto]. apply (ol_leave _ _ _ _ _ _ OL _ _ _ Es St NS HI).
  Qed.
  Lemma step_predicate q from i g d r n x w : leads a i (PredicateTr g d r n) -> Ll1Spec.rule_of a i = rule ->
    status q i (snd x) w -> status q g (snd (planned rule (plan from i) x)) w.
  Proof.
    intros (s & Es & NS & HI) R St. cases St.
    - same. left. split; [|exact EK]. exact (proj2 (or_first _ _ _ _ _ _ _ _ _ _ BR _ _ Es St) _ HI).
    - same. apply (status_onward q op c); [|exact PK]. exact (proj2 (or_part _ _ _ _ _ _ _ _ _ _ BR _ _ _ _ Es St) _ HI).
    - destruct (Z.eq_dec i entry) as [->|NE].
      + destruct (ol_entry _ _ _ _ _ _ OL) as (s' & k & gr & back & o1 & o2 & Es' & _ & Et). rewrite Es in Es'. injection Es' as <-. rewrite Et in HI.
        destruct HI as [H|[H|[]]]; discriminate.
      + destruct (ol_return _ _ _ _ _ _ OL _ _ _ Es St NE HI) as ([] & _).
    - destruct (ol_enter _ _ _ _ _ _ OL _ _ _ Es St HI) as [(g' & o & H & W)|(g' & k & H & W)]; discriminate.
    - destruct (ol_operator _ _ _ _ _ _ OL _ _ _ _ Es St HI) as ([] & _).
    - destruct (proj2 (or_call _ _ _ _ _ _ _ _ _ _ BR _ _ _ Es St) _ HI) as (f & H & _). discriminate.
    - destruct (ol_leave _ _ _ _ _ _ OL _ _ _ Es St NS HI) as ([] & _).
  Qed.
  Lemma step_precedence q from i g n x w : leads a i (PrecedenceTr g n) -> q <= n -> Ll1Spec.rule_of a i = rule ->
    status q i (snd x) w -> status q g (snd (planned rule (plan from i) x)) w.
  Proof.
    intros (s & Es & NS & HI) Q R St. cases St.
    - same. left. split; [|exact EK]. exact (proj2 (or_first _ _ _ _ _ _ _ _ _ _ BR _ _ Es St) _ HI).
    - same. apply (status_onward q op c); [|exact PK]. exact (proj2 (or_part _ _ _ _ _ _ _ _ _ _ BR _ _ _ _ Es St) _ HI).
    - destruct (Z.eq_dec i entry) as [->|NE].
      + destruct (ol_entry _ _ _ _ _ _ OL) as (s' & k & gr & back & o1 & o2 & Es' & _ & Et). rewrite Es in Es'. injection Es' as <-. rewrite Et in HI.
        destruct HI as [H|[H|[]]]; discriminate.
      + destruct (ol_return _ _ _ _ _ _ OL _ _ _ Es St NE HI) as ([] & _).
    - pose proof (or_tests _ _ _ _ _ _ _ _ _ _ BR _ _ _ Es St HI) as T. destruct (tests i) eqn:Et; [|destruct T as (? & ? & T); discriminate].
      destruct (calls_next from i x R Et) as (kl & ->). right; right; right; right; left. exists n, kl, (snd x).
      destruct (ol_enter _ _ _ _ _ _ OL _ _ _ Es St HI) as [(g' & o & H & W)|(g' & k & H & W)]; [discriminate|]. injection H as <- <-. auto.
    - destruct (ol_operator _ _ _ _ _ _ OL _ _ _ _ Es St HI) as ([] & _).
    - destruct (proj2 (or_call _ _ _ _ _ _ _ _ _ _ BR _ _ _ Es St) _ HI) as (f & H & _). discriminate.
    - destruct (ol_leave _ _ _ _ _ _ OL _ _ _ Es St NS HI) as ([] & _).
  Qed.
  Lemma step_token q from i t x y w : leads a i t -> symbols t 1 (max_token_type a) (t_type y) -> t_type y = hd TOKEN_EOF w -> Ll1Spec.rule_of a i = rule ->
    status q i (snd x) w -> status q (get_target t) (snd (with_kid (planned rule (plan from i) x) (Leaf y))) (tl w).
  Proof.
    intros L Sy Y R St. pose proof L as (s & Es & NS & HI). unfold with_kid. cbn [snd]. cases St.
    - same. rewrite EK. cbn [app]. apply (status_onward q (Some (prefix (t_type y))) true).
      + pose proof (proj2 (or_first _ _ _ _ _ _ _ _ _ _ BR _ _ Es St) _ HI) as H. destruct t; try contradiction; apply H, Sy.
      + constructor; [right; left; eauto | apply Forall_cons; [apply leaf_nested|apply Forall_nil] | reflexivity].
    - same. apply (status_onward q op true).
      + pose proof (proj2 (or_part _ _ _ _ _ _ _ _ _ _ BR _ _ _ _ Es St) _ HI) as H. destruct t; try contradiction; exact H.
      + destruct PK as [H F _]. constructor; [apply header_app, H | apply fine_app; [exact F|apply leaf_nested] | intros _; apply open_leaf].
    - destruct (Z.eq_dec i entry) as [->|NE].
      + destruct (ol_entry _ _ _ _ _ _ OL) as (s' & k & gr & back & o1 & o2 & Es' & _ & Et). rewrite Es in Es'. injection Es' as <-. rewrite Et in HI.
        destruct HI as [<-|[<-|[]]]; contradiction.
      + destruct (ol_return _ _ _ _ _ _ OL _ _ _ Es St NE HI) as (H & _). destruct t; contradiction.
    - destruct (ol_enter _ _ _ _ _ _ OL _ _ _ Es St HI) as [(g' & o & -> & W)|(g' & k & -> & W)]; contradiction.
    - same. rewrite EK. cbn [app]. apply (status_onward q (Some (operand (t_type y))) true); [eapply (or_operator _ _ _ _ _ _ _ _ _ _ BR); eauto|].
      constructor; [|apply Forall_cons; [eapply nested_kind, G|]; apply Forall_cons; [apply leaf_nested|apply Forall_nil]|intros _; apply (open_leaf [Node rule kl l])].
      left. exists kl, l, y, []. split; [reflexivity|]. split; [reflexivity|]. rewrite Y at 2. split; [|exact G].
      exists k. split; [|exact LE]. apply (ol_operator _ _ _ _ _ _ OL _ _ _ _ Es St HI), Sy.
    - destruct (proj2 (or_call _ _ _ _ _ _ _ _ _ _ BR _ _ _ Es St) _ HI) as (f & -> & _). contradiction.
    - destruct (ol_leave _ _ _ _ _ _ OL _ _ _ Es St NS HI) as (H & _). destruct t; contradiction.
  Qed.
  Lemma step_rule q from i g f r prec x w w1 kz lz : leads a i (RuleTr g f r prec) -> Ll1Spec.rule_of a i = rule ->
    nested (Node r kz lz) -> (r = rule -> good prec lz (hd TOKEN_EOF w1) /\ ~ binds prec (hd TOKEN_EOF w1)) ->
    status q i (snd x) w -> status q f (snd (with_kid (planned rule (plan from i) x) (Node r kz lz))) w1.
  Proof.
    intros L R N Sub St. pose proof L as (s & Es & NS & HI). unfold with_kid. cbn [snd]. cases St.
    - same. rewrite EK. cbn [app]. destruct (proj2 (or_first _ _ _ _ _ _ _ _ _ _ BR _ _ Es St) _ HI) as (NR' & H).
      apply (status_onward q None true); [exact H|]. constructor; [right; right; do 4 eexists; eauto | apply Forall_cons; [exact N|apply Forall_nil] |].
      intros _. change [Node r kz lz] with ([] ++ [Node r kz lz]). rewrite open_app. destruct (Z.eqb_spec r rule); [contradiction | reflexivity].
    - same. pose proof (proj2 (or_part _ _ _ _ _ _ _ _ _ _ BR _ _ _ _ Es St) _ HI) as H. cbn in H. destruct PK as [Hd F _]. destruct (Z.eqb_spec r rule) as [Er|Er].
      + apply (status_onward q op false); [exact H|]. constructor; [apply header_app, Hd | apply fine_app; [exact F | exact N] | discriminate].
      + apply (status_onward q op true); [exact H|]. constructor; [apply header_app, Hd | apply fine_app; [exact F | exact N] |]. intros _. rewrite open_app. destruct (Z.eqb_spec r rule); [contradiction | reflexivity].
    - destruct (Z.eq_dec i entry) as [->|NE].
      + destruct (ol_entry _ _ _ _ _ _ OL) as (s' & k & gr & back & o1 & o2 & Es' & _ & Et). rewrite Es in Es'. injection Es' as <-. rewrite Et in HI.
        destruct HI as [H|[H|[]]]; discriminate.
      + destruct (ol_return _ _ _ _ _ _ OL _ _ _ Es St NE HI) as ([] & _).
    - destruct (ol_enter _ _ _ _ _ _ OL _ _ _ Es St HI) as [(g' & o & H & W)|(g' & k & H & W)]; discriminate.
    - destruct (ol_operator _ _ _ _ _ _ OL _ _ _ _ Es St HI) as ([] & _).
    - same. destruct (proj2 (or_call _ _ _ _ _ _ _ _ _ _ BR _ _ _ Es St) _ HI) as (f' & H & W). injection H as -> -> -> ->.
      right; right; left. split; [exact W|]. destruct (Sub eq_refl) as (Gr & Nb). eapply called_good; eauto.
    - destruct (ol_leave _ _ _ _ _ _ OL _ _ _ Es St NS HI) as ([] & _).
  Qed.
  Lemma at_end q from i s x w : state_at a i = Some s -> Ll1Spec.is_stop s -> Ll1Spec.rule_of a i = rule -> status q i (snd x) w ->
    good q (snd (planned rule (plan from i) x)) (hd TOKEN_EOF w) /\ ~ binds q (hd TOKEN_EOF w).
  Proof.
    intros Es SS R St. cases St.
    - destruct (proj1 (or_first _ _ _ _ _ _ _ _ _ _ BR _ _ Es St) SS).
    - destruct (proj1 (or_part _ _ _ _ _ _ _ _ _ _ BR _ _ _ _ Es St) SS).
    - destruct (ol_return_state _ _ _ _ _ _ OL _ _ Es St SS).
    - destruct (proj1 (ol_enter_state _ _ _ _ _ _ OL _ _ Es St) SS).
    - destruct (proj1 (ol_operator_state _ _ _ _ _ _ OL _ _ _ Es St) SS).
    - destruct (proj1 (or_call _ _ _ _ _ _ _ _ _ _ BR _ _ _ Es St) SS).
    - same. auto.
  Qed.

  Theorem directed_good q r from i x w u y w' : directed q r from i x w u y w' -> Ll1Spec.rule_of a i = r ->
    (r <> rule -> fine (snd x) -> fine (snd y)) /\
    (r = rule -> status q i (snd x) w -> good q (snd y) (hd TOKEN_EOF w') /\ ~ binds q (hd TOKEN_EOF w')).
  Proof.
    intros D. induction D as [q r from i s x w Es SS|q r from i t x k w u y w' L Sy Y D IH|q r from i t x w u y w' L Si RT D IH|q r from i g k x w u y w' L Q D IH|q r from i g d r0 k x w u y w' L Ho D IH
      |q r from i g f r1 prec x w v z w1 u y w' L D1 IH1 D IH]; intros R.
    - split; [intros N F; apply planned_fine; auto|]. intros -> St. eapply at_end; eauto.
    - pose proof (leads_rule a recursive WF _ _ L) as LR. assert (R' : Ll1Spec.rule_of a (get_target t) = r) by (destruct t; try contradiction; congruence). destruct (IH R') as (I1 & I2). split.
      + intros N F. apply I1; [exact N|]. apply fine_app; [apply planned_fine; auto|apply leaf_nested].
      + intros -> St. apply I2; [reflexivity|]. apply step_token; assumption.
    - pose proof (leads_rule a recursive WF _ _ L) as LR. assert (R' : Ll1Spec.rule_of a (get_target t) = r) by (destruct t; try contradiction; congruence). destruct (IH R') as (I1 & I2). split.
      + intros N F. apply I1; [exact N|]. apply planned_fine; auto.
      + intros -> St. apply I2; [reflexivity|]. apply step_silent; assumption.
    - pose proof (leads_rule a recursive WF _ _ L) as LR. cbn in LR. destruct (IH (eq_trans LR R)) as (I1 & I2). split.
      + intros N F. apply I1; [exact N|]. apply planned_fine; auto.
      + intros -> St. apply I2; [reflexivity|]. eapply step_precedence; eauto.
    - pose proof (leads_rule a recursive WF _ _ L) as LR. cbn in LR. destruct (IH (eq_trans LR R)) as (I1 & I2). split.
      + intros N F. apply I1; [exact N|]. apply planned_fine; auto.
      + intros -> St. apply I2; [reflexivity|]. eapply step_predicate; eauto.
    - pose proof (leads_rule a recursive WF _ _ L) as LR. cbn in LR. destruct (IH (eq_trans LR R)) as (I1 & I2). destruct (IH1 (NR _ _ _ _ _ L)) as (J1 & J2).
      assert (Sub : r1 = rule -> good prec (snd z) (hd TOKEN_EOF w1) /\ ~ binds prec (hd TOKEN_EOF w1)).
      { intros ->. rewrite (or_recursive _ _ _ _ _ _ _ _ _ _ BR) in J2. apply J2; [reflexivity|]. rewrite (or_calls _ _ _ _ _ _ _ _ _ _ BR _ _ _ _ L). left. split; [apply (or_start _ _ _ _ _ _ _ _ _ _ BR)|reflexivity]. }
      assert (N : nested (Node r1 (fst z) (snd z))).
      { destruct (Z.eq_dec r1 rule) as [->|NE]; [eapply nested_kind, Sub; reflexivity|]. apply other_nested; [exact NE|]. apply J1; [exact NE|apply Forall_nil]. }
      split.
      + intros NE F. apply I1; [exact NE|]. apply fine_app; [apply planned_fine; auto|exact N].
      + intros -> St. apply I2; [reflexivity|]. eapply step_rule; eauto.
  Qed.
  (** the tree of a rule *)
  Theorem directed_nested q r g w u y w' : directed q r (-1) g (0%nat, []) w u y w' -> Ll1Spec.rule_of a g = r -> (r = rule -> g = start) -> nested (Node r (fst y) (snd y)).
  Proof.
    intros D R ST. destruct (directed_good _ _ _ _ _ _ _ _ _ D R) as (I1 & I2). destruct (Z.eq_dec r rule) as [E|NE].
    - rewrite E. eapply nested_kind, I2; [exact E|]. rewrite (ST E). left. split; [apply (or_start _ _ _ _ _ _ _ _ _ _ BR)|reflexivity].
    - apply other_nested; [exact NE|]. apply I1; [exact NE|apply Forall_nil].
  Qed.
End Directed.
