(** In a grammar that cannot stall, a configuration cannot move for ever without leaving
    the stacks it has; and the predicates it can collect are finitely many. *)
From Coq Require Import ZArith List Bool Lia Relations Wellfounded Permutation ZifyBool ZifyNat.
From Verif Require Import Outcome IntervalSetModel PredContextModel PredContextSpec PredContextProofs SemContextModel SemContextProofs AtnModel AtnSpec AtnProofs.
From Verif Require Import ConfigSetModel DfaModel Ll1Model Ll1Spec ParserModel PredictModel PredictLLSpec PredictLLSetProofs PredictTotalSpec.
Import ListNotations.
Local Open Scope Z_scope.

(** ** Acyclic relations on finitely many numbers *)
Section Finite.
  Variable N : Z -> Z -> Prop.
  Variable n : nat.
  Hypothesis dom : forall q q', N q q' -> 0 <= q < Z.of_nat n.
  Hypothesis irr : forall q, ~ clos_trans Z N q q.

  Lemma finite_acc_path : forall k l q, (n <= length l + k)%nat -> NoDup l -> (forall z, In z l -> 0 <= z < Z.of_nat n /\ clos_trans Z N z q) ->
    Acc (fun y x => N x y) q.
  Proof.
    induction k as [|k IH]; intros l q Hl Hd Hz; constructor; intros q' Hq.
    - exfalso. assert (Hq' : ~ In q l) by (intros I; apply (irr q), (Hz q I)).
      assert (incl (map Z.to_nat (q :: l)) (seq 0 n)).
      { intros x Hx. apply in_map_iff in Hx as (z & <- & [<-|Hx]); apply in_seq; [apply dom in Hq | apply Hz in Hx as (Hx & _)]; lia. }
      assert (D : NoDup (map Z.to_nat (q :: l))).
      { assert (D0 : NoDup (q :: l)) by (constructor; assumption).
        assert (R0 : forall z, In z (q :: l) -> 0 <= z) by (intros z [<-|Hx]; [apply dom in Hq | apply Hz in Hx as (Hx & _)]; lia).
        clear - D0 R0. induction D0 as [|z r Nz D IHd]; cbn [map]; constructor.
        - intros I. apply in_map_iff in I as (y & E & I). apply Nz. assert (0 <= z) by (apply R0; left; reflexivity).
          assert (0 <= y) by (apply R0; right; exact I). replace z with y by lia. exact I.
        - apply IHd. intros y I. apply R0. right. exact I. }
      pose proof (NoDup_incl_length D H) as L. rewrite map_length, seq_length in L. cbn [length] in L. lia.
    - apply (IH (q :: l)).
      + cbn [length]. lia.
      + constructor; [|exact Hd]. intros I. apply (irr q), (Hz q I).
      + intros z [<-|I]; [split; [eapply dom; eauto | apply t_step; exact Hq]|]. destruct (Hz z I) as (B & T). split; [exact B|].
        eapply t_trans; [exact T | apply t_step; exact Hq].
  Qed.
  Lemma finite_wf : well_founded (fun y x => N x y).
  Proof. intros q. apply (finite_acc_path n [] q); [cbn; lia | constructor | intros z []]. Qed.
End Finite.

Lemma clos_t_rt {A} (R : A -> A -> Prop) x y : clos_trans A R x y -> clos_refl_trans A R x y.
Proof. induction 1; [apply rt_step; assumption | eapply rt_trans; eassumption]. Qed.

Section Steps.
  Variable a : atn.
  Hypothesis NS : no_stall a.
  Notation quiet := (quiet a).

  Lemma quiet_frame q l q' l' k : quiet (q, l) (q', l') -> quiet (q, l ++ k) (q', l' ++ k).
  Proof.
    intros [M|M]; [left | right]; inversion M; subst.
    - eapply move_epsilon; eauto.
    - rewrite <- app_comm_cons. eapply move_call; eauto.
    - rewrite <- app_comm_cons. eapply move_return; eauto.
    - eapply take_token; eauto.
  Qed.
  Lemma quiets_frame p p' : clos_trans position quiet p p' -> forall k, clos_trans position quiet (fst p, snd p ++ k) (fst p', snd p' ++ k).
  Proof.
    induction 1 as [[q l] [q' l'] H|p p1 p2 H1 IH1 H2 IH2]; intros k; [apply t_step, quiet_frame, H|].
    eapply t_trans; [apply IH1 | apply IH2].
  Qed.

  (** [q] leads, without a token, to the end of its rule *)
  Definition ends (q : Z) : Prop := exists e s, clos_refl_trans position quiet (q, []) (e, []) /\ state_at a e = Some s /\ Ll1Spec.is_stop s.
  (** an edge that a closure follows within a rule *)
  Definition edge (q q' : Z) : Prop := exists s t, state_at a q = Some s /\ ~ Ll1Spec.is_stop s /\ In t (st_trans s) /\ is_call t = false /\
    q' = get_target t /\ (~ consuming t \/ symbols t 1 (max_token_type a) TOKEN_EOF).
  Definition call (q g f : Z) : Prop := exists s r p, state_at a q = Some s /\ ~ Ll1Spec.is_stop s /\ In (RuleTr g f r p) (st_trans s).
  Definition stops (q : Z) : Prop := exists s, state_at a q = Some s /\ Ll1Spec.is_stop s.
  Inductive next : Z -> Z -> Prop :=
  | next_edge : forall q q', edge q q' -> next q q'
  | next_call : forall q g f, call q g f -> next q g
  | next_follow : forall q g f, call q g f -> ends g -> next q f.

  Lemma edge_quiet q q' l : edge q q' -> quiet (q, l) (q', l).
  Proof.
    intros (s & t & E & St & I & C & -> & [Nc|Sy]); [left; eapply move_epsilon; eauto|].
    right. eapply take_token; eauto.
  Qed.
  Lemma call_quiet q g f l : call q g f -> quiet (q, l) (g, f :: l).
  Proof. intros (s & r & p & E & St & I). left. eapply move_call; eauto. Qed.
  Lemma ends_return g f : ends g -> clos_trans position quiet (g, [f]) (f, []).
  Proof.
    intros (e & s & R & E & St).
    assert (Last : clos_trans position quiet (e, [f]) (f, [])) by (apply t_step; left; eapply move_return; eauto).
    apply clos_rt_rtn1 in R. apply clos_rtn1_rt in R.
    assert (X : (g, @nil Z) = (e, []) \/ clos_trans position quiet (g, []) (e, [])).
    { clear - R. remember (g, @nil Z) as p. remember (e, @nil Z) as p'. clear Heqp Heqp'. induction R as [x y H|x|x y z H1 IH1 H2 IH2].
      - right. apply t_step, H.
      - left. reflexivity.
      - destruct IH1 as [-> |IH1]; [exact IH2|]. destruct IH2 as [<- |IH2]; [right; exact IH1|]. right. eapply t_trans; eauto. }
    destruct X as [X|X]; [inversion X; subst; exact Last|].
    eapply t_trans; [apply (quiets_frame _ _ X [f]) | exact Last].
  Qed.
  Lemma next_quiet q q' : next q q' -> exists conts, clos_trans position quiet (q, []) (q', conts).
  Proof.
    intros [p p' E|p g f C|p g f C E].
    - exists []. apply t_step, edge_quiet, E.
    - exists [f]. apply t_step, call_quiet, C.
    - exists []. eapply t_trans; [apply t_step, call_quiet, C | apply ends_return, E].
  Qed.
  Lemma nexts_quiet q q' : clos_trans Z next q q' -> exists conts, clos_trans position quiet (q, []) (q', conts).
  Proof.
    induction 1 as [q q' H|q q1 q2 H1 (l1 & IH1) H2 (l2 & IH2)]; [apply next_quiet, H|].
    exists (l2 ++ l1). eapply t_trans; [exact IH1|]. apply (quiets_frame _ _ IH2 l1).
  Qed.
  Lemma next_wf : well_founded (fun y x => next x y).
  Proof.
    apply (finite_wf next (length (states a))).
    - intros q q' H. assert (E : exists s, state_at a q = Some s).
      { destruct H as [p p' (s & t & E & _)|p g f (s & r & n & E & _)|p g f (s & r & n & E & _) _]; exists s; exact E. }
      destruct E as (s & E). unfold state_at in E. destruct (q <? 0) eqn:Q; [discriminate|].
      pose proof (nth_error_Some (states a) (Z.to_nat q)) as X. rewrite E in X. pose proof (proj1 X ltac:(discriminate)). lia.
    - intros q H. apply nexts_quiet in H as (l & H). exact (NS q l H).
  Qed.

  (** ** Configurations: a state and a context *)
  Inductive step : Z * pctx -> Z * pctx -> Prop :=
  | step_edge : forall q x q', edge q q' -> step (q, x) (q', x)
  | step_call : forall q x g f, call q g f -> step (q, x) (g, Singleton f (Some x))
  | step_return : forall q x r p, stops q -> In (r, Some p) (entries x) -> step (q, x) (r, p).
  Notation stepr := (fun y x => step x y).

  Lemma ends_edge q q' : edge q q' -> ends q' -> ends q.
  Proof. intros E (e & s & R & H). exists e, s. split; [|exact H]. eapply rt_trans; [apply rt_step, edge_quiet, E | exact R]. Qed.
  Lemma ends_follow q g f : call q g f -> ends g -> ends f -> ends q.
  Proof.
    intros C G (e & s & R & H). exists e, s. split; [|exact H]. eapply rt_trans; [apply rt_step, (call_quiet _ _ _ [] C)|].
    eapply rt_trans; [|exact R]. apply clos_t_rt, ends_return, G.
  Qed.
  Lemma stops_ends q : stops q -> ends q.
  Proof. intros (s & E & St). exists q, s. split; [apply rt_refl | auto]. Qed.

  Lemma step_acc_state q : forall x, (ends q -> forall r p, In (r, Some p) (entries x) -> Acc stepr (r, p)) -> Acc stepr (q, x).
  Proof.
    induction q as [q IH] using (well_founded_induction next_wf). intros x Hx. constructor. intros [q' x'] St. inversion St; subst.
    - apply IH; [apply next_edge; assumption|]. intros E. apply Hx. eapply ends_edge; eauto.
    - apply IH; [eapply next_call; eassumption|]. intros E r p [Q|[]]. inversion Q; subst.
      apply IH; [eapply next_follow; eassumption|]. intros E'. apply Hx. eapply ends_follow; eauto.
    - eapply Hx; [apply stops_ends; assumption | eassumption].
  Qed.
  Lemma step_acc q x : Acc stepr (q, x).
  Proof.
    revert q. induction x as [r|r p IH|rs ps IH] using pctx_ind'; intros q; apply step_acc_state; intros _ r' p' I.
    - destruct I as [Q|[]]. discriminate.
    - destruct I as [Q|[]]. inversion Q; subst. apply IH.
    - cbn [entries] in I. apply IH. apply in_combine_r in I. exact I.
  Qed.
End Steps.

(** ** The predicates that can be collected *)
Section Sems.
  Variable A : list sem.
  Fixpoint lists (k : nat) : list (list sem) :=
    match k with
    | O => [[]]
    | S k => [] :: flat_map (fun x => map (cons x) (lists k)) A
    end.
  Lemma in_lists k : forall l, (length l <= k)%nat -> incl l A -> In l (lists k).
  Proof.
    induction k as [|k IH]; intros [|x l] L I; cbn [lists].
    - left. reflexivity.
    - cbn in L. lia.
    - left. reflexivity.
    - right. apply in_flat_map. exists x. split; [apply I; left; reflexivity|]. apply in_map, IH; [cbn in L; lia|]. intros y Hy. apply I. right. exact Hy.
  Qed.
  Definition all_sems : list sem := NONE :: A ++ map And (lists (length A)).

  Variable order : list nat -> list sem -> list sem.
  Hypothesis Ho : forall at_ l, Permutation (order at_ l) l.

  Definition small (l : list sem) : Prop := NoDup l /\ incl l A.
  Lemma all_and l : small l -> In (And l) all_sems.
  Proof.
    intros (D & I). right. apply in_app_iff. right. apply in_map. apply in_lists; [|exact I]. apply NoDup_incl_length; assumption.
  Qed.
  (** the forms predicates have: nothing, one, or a conjunction of different ones *)
  Definition form (s : sem) : Prop := s = NONE \/ In s A \/ exists l, s = And l /\ small l.
  Lemma form_all s : form s -> In s all_sems.
  Proof. intros [-> |[H|(l & -> & H)]]; [left; reflexivity | right; apply in_app_iff; left; exact H | apply all_and, H]. Qed.
  Hypothesis flat : forall s, In s A -> match s with And _ | Or _ => False | _ => True end.

  Lemma small_insert l x : small l -> In x A -> small (set_insert l x).
  Proof. intros (D & I) Hx. split; [apply nodup_set_insert, D|]. intros y Hy. apply in_set_insert in Hy as [Hy| ->]; auto. Qed.
  Lemma small_extend l l' : small l -> incl l' A -> small (set_extend l l').
  Proof. intros (D & I) Hx. split; [apply nodup_set_extend, D|]. intros y Hy. apply in_set_extend in Hy as [Hy|Hy]; auto. Qed.
  Lemma min_prec_in l r : min_prec l = Some r -> In r l.
  Proof.
    revert r. induction l as [|s l IH]; cbn [min_prec]; intros r H; [discriminate|].
    destruct s; try (right; apply IH; exact H). destruct (min_prec l) as [[| | |]|] eqn:E; inversion H; subst; try (left; reflexivity).
    specialize (IH _ eq_refl). destruct (prec <=? prec0); [left; reflexivity | right; exact IH].
  Qed.
  Lemma form_new_and at_ s p : form s -> s <> NONE -> In p A -> form (new_and order at_ s p).
  Proof.
    intros F Ne Ip. unfold new_and.
    assert (S1 : small (match s with And ops => set_extend [] ops | _ => set_insert [] s end)).
    { assert (S0 : small []) by (split; [constructor | intros x []]).
      destruct F as [-> |[H|(l & -> & H)]]; [congruence | |].
      - specialize (flat _ H). destruct s; try destruct flat; apply small_insert; assumption.
      - apply small_extend; [exact S0 | apply H]. }
    set (l1 := match s with And ops => _ | _ => _ end) in *. clearbody l1.
    assert (S2 : small (match p with And ops => set_extend l1 ops | _ => set_insert l1 p end)).
    { pose proof (flat _ Ip) as Fp. destruct p; try destruct Fp; apply small_insert; assumption. }
    set (l2 := match p with And ops => _ | _ => _ end) in *. clearbody l2.
    unfold filter_precedence_predicate.
    assert (S3 : small (filter (fun s0 => negb (is_precedence s0)) l2)).
    { destruct S2 as (D & I). split; [apply NoDup_filter, D | intros y Hy; apply filter_In in Hy as (Hy & _); auto]. }
    assert (S4 : small (match min_prec (filter is_precedence l2) with
      | Some r => set_insert (filter (fun s0 => negb (is_precedence s0)) l2) r
      | None => filter (fun s0 => negb (is_precedence s0)) l2 end)).
    { destruct (min_prec (filter is_precedence l2)) as [w|] eqn:Em; [|exact S3].
      apply small_insert; [exact S3|]. apply min_prec_in, filter_In in Em as (Em & _). apply S2, Em. }
    set (l3 := match min_prec _ with Some r => _ | None => _ end) in *. clearbody l3.
    assert (S5 : small (order at_ l3)).
    { destruct S4 as (D & I). split.
      - eapply Permutation_NoDup; [apply Permutation_sym, Ho | exact D].
      - intros y Hy. apply I. eapply Permutation_in; [apply Ho | exact Hy]. }
    destruct (order at_ l3) as [|x [|y l]]; [right; right; eauto | right; left; apply S5; left; reflexivity | right; right; eauto].
  Qed.
  Lemma form_and at_ s p : form s -> In p A -> form (sem_and order at_ (Some s) (Some p)).
  Proof.
    intros F Ip. cbn [sem_and]. destruct (sem_eqb s NONE) eqn:E; [right; left; exact Ip|].
    destruct (sem_eqb p NONE) eqn:E'; [exact F|]. apply form_new_and; auto. apply sem_eqb_neq. exact E.
  Qed.
End Sems.

(** the predicates of the grammar *)
Definition predicates (a : atn) : list sem :=
  flat_map (fun s => flat_map (fun t => match get_predicate t with Some p => [p] | None => [] end) (st_trans s)) (states a).
Lemma predicates_flat a s : In s (predicates a) -> match s with And _ | Or _ => False | _ => True end.
Proof.
  intros H. apply in_flat_map in H as (st & _ & H). apply in_flat_map in H as (t & _ & H). destruct t; cbn in H; try contradiction;
    destruct H as [<-|[]]; exact Logic.I.
Qed.
Lemma predicates_in a i s t p : state_at a i = Some s -> In t (st_trans s) -> get_predicate t = Some p -> In p (predicates a).
Proof.
  intros E I P. unfold state_at in E. destruct (i <? 0); [discriminate|]. apply nth_error_In in E. apply in_flat_map. exists s. split; [exact E|].
  apply in_flat_map. exists t. split; [exact I|]. rewrite P. left. reflexivity.
Qed.
