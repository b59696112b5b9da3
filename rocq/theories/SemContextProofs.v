(** Lemmas about the predicate-tree model. *)
From Coq Require Import ZArith List Bool Lia Permutation ZifyBool.
From Verif Require Import SemContextModel SemContextSpec.
Import ListNotations.
Local Open Scope Z_scope.

Lemma sem_ind' (P : sem -> Prop) :
  (forall r p d, P (Predicate r p d)) ->
  (forall n, P (Precedence n)) ->
  (forall ops, (forall s, In s ops -> P s) -> P (And ops)) ->
  (forall ops, (forall s, In s ops -> P s) -> P (Or ops)) ->
  forall s, P s.
Proof.
  intros HP HN HA HO. fix IH 1. intros [r p d | n | ops | ops].
  - apply HP.
  - apply HN.
  - apply HA. induction ops as [|x ops IHops]; cbn [In].
    + intros s [].
    + intros s [Hs | Hs]; [subst s; apply IH | apply (IHops s Hs)].
  - apply HO. induction ops as [|x ops IHops]; cbn [In].
    + intros s [].
    + intros s [Hs | Hs]; [subst s; apply IH | apply (IHops s Hs)].
Qed.

Lemma sem_eqb_eq : forall a b, sem_eqb a b = true <-> a = b.
Proof.
  assert (L : forall ops,
    (forall s, In s ops -> forall b, sem_eqb s b = true <-> s = b) ->
    forall ys, (fix list_eqb (x y : list sem) {struct x} : bool :=
      match x, y with
      | [], [] => true
      | u :: x', v :: y' => sem_eqb u v && list_eqb x' y'
      | _, _ => false
      end) ops ys = true <-> ops = ys).
  { induction ops as [|u ops IH]; intros H ys; destruct ys as [|v ys].
    - split; auto.
    - split; discriminate.
    - split; discriminate.
    - rewrite andb_true_iff, (H u (or_introl eq_refl)), IH by (intros; apply H; right; assumption).
      split; [intros [-> ->]; reflexivity | intros E; inversion E; auto]. }
  induction a as [r p d | n | ops IH | ops IH] using sem_ind'; intros [r' p' d' | n' | ops' | ops'];
    cbn [sem_eqb]; try (split; discriminate).
  - rewrite !andb_true_iff, !Z.eqb_eq, eqb_true_iff. split; [intros [[-> ->] ->]; reflexivity | intros E; inversion E; auto].
  - rewrite Z.eqb_eq. split; [intros ->; reflexivity | intros E; inversion E; auto].
  - etransitivity; [apply (L ops IH ops')|]. split; [intros ->; reflexivity | intros E; inversion E; auto].
  - etransitivity; [apply (L ops IH ops')|]. split; [intros ->; reflexivity | intros E; inversion E; auto].
Qed.

Lemma sem_eqb_refl a : sem_eqb a a = true.
Proof. apply sem_eqb_eq; reflexivity. Qed.

Lemma sem_eqb_neq a b : sem_eqb a b = false <-> a <> b.
Proof. rewrite <- not_true_iff_false, sem_eqb_eq. reflexivity. Qed.

(** ** hash sets *)
Lemma in_set_insert s x y : In y (set_insert s x) <-> In y s \/ y = x.
Proof.
  unfold set_insert. destruct (existsb (sem_eqb x) s) eqn:E.
  - apply existsb_exists in E. destruct E as (z & Hz & Ez). apply sem_eqb_eq in Ez. subst z.
    split; [auto | intros [H | ->]; assumption].
  - rewrite in_app_iff. cbn [In]. intuition auto.
Qed.

Lemma in_set_extend xs : forall s y, In y (set_extend s xs) <-> In y s \/ In y xs.
Proof.
  unfold set_extend. induction xs as [|x xs IH]; intros s y; cbn [fold_left In].
  - intuition auto.
  - rewrite IH, in_set_insert. intuition auto.
Qed.

Lemma nodup_set_insert s x : NoDup s -> NoDup (set_insert s x).
Proof.
  intros H. unfold set_insert. destruct (existsb (sem_eqb x) s) eqn:E; [exact H|].
  apply NoDup_rev in H. rewrite <- (rev_involutive (s ++ [x])). apply NoDup_rev.
  rewrite rev_app_distr. cbn [rev app]. constructor; [|exact H].
  rewrite <- in_rev. intros Hin. assert (existsb (sem_eqb x) s = true); [|congruence].
  apply existsb_exists. exists x. split; [assumption | apply sem_eqb_refl].
Qed.

Lemma nodup_set_extend xs : forall s, NoDup s -> NoDup (set_extend s xs).
Proof.
  unfold set_extend. induction xs as [|x xs IH]; intros s H; cbn [fold_left]; [exact H|].
  apply IH, nodup_set_insert, H.
Qed.

Section Eval.
  Variable ctx : Type.
  Variable user : option ctx -> Z -> Z -> bool.
  Variable cur : Z.
  Variable order : list nat -> list sem -> list sem.
  Variable outer : ctx.
  Notation ev := (evaluate ctx user cur outer).

  Lemma evaluate_holds : forall s, ev s = true <-> holds ctx user cur outer s.
  Proof.
    induction s as [r p d | n | ops IH | ops IH] using sem_ind'; cbn [evaluate].
    - destruct d; (split; [intros H; constructor; exact H | intros H; inversion H; assumption]).
    - unfold precpred. split; [intros H; constructor; lia | intros H; inversion H; lia].
    - rewrite forallb_forall. split.
      + intros H. constructor. intros s Hs. apply IH; auto.
      + intros H. inversion H; subst. intros s Hs. apply IH; auto.
    - rewrite existsb_exists. split.
      + intros (s & Hs & E). apply H_or with s; [assumption | apply IH; assumption].
      + intros H. inversion H as [| | | |? s Hs Hh]; subst. exists s. split; [assumption | apply IH; assumption].
  Qed.

  (** [all_true l]: conjunction of the members; only membership matters. *)
  Lemma forallb_ext_in l l' : (forall x, In x l <-> In x l') -> forallb ev l = forallb ev l'.
  Proof.
    intros H. destruct (forallb ev l) eqn:E, (forallb ev l') eqn:E'; auto.
    - rewrite <- not_true_iff_false in E'. destruct E'. apply forallb_forall. intros x Hx.
      rewrite forallb_forall in E. apply E, H, Hx.
    - rewrite <- not_true_iff_false in E. destruct E. apply forallb_forall. intros x Hx.
      rewrite forallb_forall in E'. apply E', H, Hx.
  Qed.
  Lemma existsb_ext_in l l' : (forall x, In x l <-> In x l') -> existsb ev l = existsb ev l'.
  Proof.
    intros H. apply eq_true_iff_eq. rewrite !existsb_exists.
    split; intros (x & Hx & E); exists x; split; try assumption; apply H, Hx.
  Qed.

  Lemma min_prec_spec l : (forall x, In x l -> is_precedence x = true) ->
    match min_prec l with
    | None => l = []
    | Some r => (exists n, r = Precedence n) /\ In r l /\ ev r = forallb ev l
    end.
  Proof.
    induction l as [|x l IH]; intros H; cbn [min_prec]; [reflexivity|].
    pose proof (H x (or_introl eq_refl)) as Hx. destruct x as [r p d | n | ops | ops]; try discriminate Hx.
    specialize (IH (fun y Hy => H y (or_intror Hy))).
    destruct (min_prec l) as [r|].
    - destruct IH as ((m & ->) & Hin & E). cbn [forallb]. rewrite <- E. cbn [evaluate]. unfold precpred.
      destruct (n <=? m) eqn:C.
      + split; [eauto|]. split; [left; reflexivity|]. lia.
      + split; [eauto|]. split; [right; assumption|]. lia.
    - subst l. split; [eauto|]. split; [left; reflexivity|]. cbn. rewrite andb_true_r. reflexivity.
  Qed.
  Lemma max_prec_spec l : (forall x, In x l -> is_precedence x = true) ->
    match max_prec l with
    | None => l = []
    | Some r => (exists n, r = Precedence n) /\ In r l /\ ev r = existsb ev l
    end.
  Proof.
    induction l as [|x l IH]; intros H; cbn [max_prec]; [reflexivity|].
    pose proof (H x (or_introl eq_refl)) as Hx. destruct x as [r p d | n | ops | ops]; try discriminate Hx.
    specialize (IH (fun y Hy => H y (or_intror Hy))).
    destruct (max_prec l) as [r|].
    - destruct IH as ((m & ->) & Hin & E). cbn [existsb]. rewrite <- E. cbn [evaluate]. unfold precpred.
      destruct (n <=? m) eqn:C.
      + split; [eauto|]. split; [right; assumption|]. lia.
      + split; [eauto|]. split; [left; reflexivity|]. lia.
    - subst l. split; [eauto|]. split; [left; reflexivity|]. cbn. rewrite orb_false_r. reflexivity.
  Qed.

  Lemma forallb_split (f g : sem -> bool) l :
    forallb f l = forallb f (filter (fun x => negb (g x)) l) && forallb f (filter g l).
  Proof.
    induction l as [|x l IH]; cbn [forallb filter]; [reflexivity|].
    rewrite IH. destruct (g x); cbn [negb forallb].
    - destruct (f x); [reflexivity | rewrite andb_false_r; reflexivity].
    - rewrite andb_assoc. reflexivity.
  Qed.
  Lemma existsb_split (f g : sem -> bool) l :
    existsb f l = existsb f (filter (fun x => negb (g x)) l) || existsb f (filter g l).
  Proof.
    induction l as [|x l IH]; cbn [existsb filter]; [reflexivity|].
    rewrite IH. destruct (g x); cbn [negb existsb].
    - destruct (f x); [rewrite orb_true_r; reflexivity | reflexivity].
    - rewrite orb_assoc. reflexivity.
  Qed.

  Lemma forallb_insert l x : forallb ev (set_insert l x) = forallb ev l && ev x.
  Proof.
    rewrite (forallb_ext_in _ (l ++ [x])).
    - rewrite forallb_app. cbn. rewrite andb_true_r. reflexivity.
    - intros y. rewrite in_set_insert, in_app_iff. cbn [In]. intuition auto.
  Qed.
  Lemma existsb_insert l x : existsb ev (set_insert l x) = existsb ev l || ev x.
  Proof.
    rewrite (existsb_ext_in _ (l ++ [x])).
    - rewrite existsb_app. cbn. rewrite orb_false_r. reflexivity.
    - intros y. rewrite in_set_insert, in_app_iff. cbn [In]. intuition auto.
  Qed.
  Lemma forallb_extend l xs : forallb ev (set_extend l xs) = forallb ev l && forallb ev xs.
  Proof.
    rewrite (forallb_ext_in _ (l ++ xs)); [apply forallb_app|].
    intros y. rewrite in_set_extend, in_app_iff. reflexivity.
  Qed.
  Lemma existsb_extend l xs : existsb ev (set_extend l xs) = existsb ev l || existsb ev xs.
  Proof.
    rewrite (existsb_ext_in _ (l ++ xs)); [apply existsb_app|].
    intros y. rewrite in_set_extend, in_app_iff. reflexivity.
  Qed.

  Hypothesis Hord : reorders order.

  Lemma wrap_and at_ l : ev (match order at_ l with [x] => x | l' => And l' end) = forallb ev l.
  Proof.
    rewrite (forallb_ext_in l (order at_ l)).
    - destruct (order at_ l) as [|x [|y q]]; try reflexivity. cbn. rewrite andb_true_r. reflexivity.
    - intros x. split; apply Permutation_in; [apply Permutation_sym|]; apply Hord.
  Qed.
  Lemma wrap_or at_ l : ev (match order at_ l with [x] => x | l' => Or l' end) = existsb ev l.
  Proof.
    rewrite (existsb_ext_in l (order at_ l)).
    - destruct (order at_ l) as [|x [|y q]]; try reflexivity. cbn. rewrite orb_false_r. reflexivity.
    - intros x. split; apply Permutation_in; [apply Permutation_sym|]; apply Hord.
  Qed.

  Lemma new_and_eval at_ a b : ev (new_and order at_ a b) = ev a && ev b.
  Proof.
    unfold new_and.
    set (o1 := match a with And ops => set_extend [] ops | _ => set_insert [] a end).
    assert (E1 : forallb ev o1 = ev a).
    { subst o1. destruct a; try (rewrite forallb_insert; reflexivity). rewrite forallb_extend. reflexivity. }
    clearbody o1.
    set (o2 := match b with And ops => set_extend o1 ops | _ => set_insert o1 b end).
    assert (E2 : forallb ev o2 = ev a && ev b).
    { rewrite <- E1. subst o2. destruct b; try (rewrite forallb_insert; reflexivity). rewrite forallb_extend. reflexivity. }
    clearbody o2. rewrite <- E2. unfold filter_precedence_predicate.
    rewrite wrap_and.
    pose proof (min_prec_spec (filter is_precedence o2)) as M.
    specialize (M (fun x Hx => proj2 (proj1 (filter_In _ _ _) Hx))).
    rewrite (forallb_split ev is_precedence o2).
    destruct (min_prec (filter is_precedence o2)) as [r|].
    - destruct M as (_ & _ & E). rewrite forallb_insert, E. reflexivity.
    - rewrite M. cbn. rewrite andb_true_r. reflexivity.
  Qed.
  Lemma new_or_eval at_ a b : ev (new_or order at_ a b) = ev a || ev b.
  Proof.
    unfold new_or.
    set (o1 := match a with Or ops => set_extend [] ops | _ => set_insert [] a end).
    assert (E1 : existsb ev o1 = ev a).
    { subst o1. destruct a; try (rewrite existsb_insert; reflexivity). rewrite existsb_extend. reflexivity. }
    clearbody o1.
    set (o2 := match b with Or ops => set_extend o1 ops | _ => set_insert o1 b end).
    assert (E2 : existsb ev o2 = ev a || ev b).
    { rewrite <- E1. subst o2. destruct b; try (rewrite existsb_insert; reflexivity). rewrite existsb_extend. reflexivity. }
    clearbody o2. rewrite <- E2. unfold filter_precedence_predicate.
    rewrite wrap_or.
    pose proof (max_prec_spec (filter is_precedence o2)) as M.
    specialize (M (fun x Hx => proj2 (proj1 (filter_In _ _ _) Hx))).
    rewrite (existsb_split ev is_precedence o2).
    destruct (max_prec (filter is_precedence o2)) as [r|].
    - destruct M as (_ & _ & E). rewrite existsb_insert, E. reflexivity.
    - rewrite M. cbn. rewrite orb_false_r. reflexivity.
  Qed.

  (** an absent operand counts as true for [and]; for [or] it is neutral unless
      both are absent *)
  Definition val_and (o : option sem) : bool := match o with Some s => ev s | None => true end.

  Hypothesis Hnone : none_is_true user.

  Lemma ev_NONE : ev NONE = true.
  Proof. exact Hnone. Qed.

  Lemma sem_and_eval at_ a b : ev (sem_and order at_ a b) = val_and a && val_and b.
  Proof.
    destruct a as [a|], b as [b|]; cbn [sem_and val_and].
    - destruct (sem_eqb a NONE) eqn:Ea.
      { apply sem_eqb_eq in Ea. subst a. rewrite ev_NONE. reflexivity. }
      destruct (sem_eqb b NONE) eqn:Eb.
      { apply sem_eqb_eq in Eb. subst b. rewrite ev_NONE, andb_true_r. reflexivity. }
      apply new_and_eval.
    - rewrite andb_true_r. reflexivity.
    - reflexivity.
    - rewrite ev_NONE. reflexivity.
  Qed.
  Lemma sem_or_eval at_ a b : ev (sem_or order at_ (Some a) (Some b)) = ev a || ev b.
  Proof.
    cbn [sem_or]. destruct (sem_eqb a NONE) eqn:Ea; cbn [orb].
    { apply sem_eqb_eq in Ea. subst a. rewrite ev_NONE. reflexivity. }
    destruct (sem_eqb b NONE) eqn:Eb.
    { apply sem_eqb_eq in Eb. subst b. rewrite ev_NONE, orb_true_r. reflexivity. }
    apply new_or_eval.
  Qed.

  Lemma fold_or_eval l : forall at_ n acc,
    ev (fold_ops (sem_or order) at_ n acc l) = ev acc || existsb ev l.
  Proof.
    induction l as [|x l IH]; intros at_ n acc; cbn [fold_ops existsb].
    - rewrite orb_false_r. reflexivity.
    - rewrite IH, sem_or_eval, orb_assoc. reflexivity.
  Qed.
  Lemma fold_and_eval l : forall at_ n acc,
    ev (fold_ops (sem_and order) at_ n acc l) = ev acc && forallb ev l.
  Proof.
    induction l as [|x l IH]; intros at_ n acc; cbn [fold_ops forallb].
    - rewrite andb_true_r. reflexivity.
    - rewrite IH, sem_and_eval, <- andb_assoc. reflexivity.
  Qed.

  (** the value of an [eval_precedence] result: None is false *)
  Definition val_opt (o : option sem) : bool := match o with Some s => ev s | None => false end.

  Notation ep := (eval_precedence cur order).

  (** the operand loops as stand-alone functions *)
  Definition or_loop (at_ : list nat) : nat -> bool -> list sem -> list sem -> loop_result :=
    fix go (i : nat) (differs : bool) (operands : list sem) (l : list sem)
            {struct l} : loop_result :=
          match l with
          | [] => Fallthrough differs operands
          | c :: l' =>
              let evaluated := ep (i :: at_) c in
              let differs := differs || match evaluated with Some e => sem_eqb c e | None => false end in
              match evaluated with
              | Some e => if sem_eqb e NONE then Return (Some NONE)
                          else go (S i) differs (operands ++ [e]) l'
              | None => go (S i) differs operands l'
              end
          end.
  Definition and_loop (at_ : list nat) : nat -> bool -> list sem -> list sem -> loop_result :=
    fix go (i : nat) (differs : bool) (operands : list sem) (l : list sem)
            {struct l} : loop_result :=
          match l with
          | [] => Fallthrough differs operands
          | c :: l' =>
              let evaluated := ep (i :: at_) c in
              let differs := differs || match evaluated with Some e => sem_eqb c e | None => false end in
              match evaluated with
              | Some e => if sem_eqb e NONE then go (S i) differs operands l'
                          else go (S i) differs (operands ++ [e]) l'
              | None => Return None
              end
          end.

  Lemma ep_or at_ ops : ep at_ (Or ops) =
    match or_loop at_ O false [] ops with
    | Return r => r
    | Fallthrough differs operands =>
        if negb differs then Some (Or ops)
        else match operands with
             | [] => None
             | r :: operands => Some (fold_ops (sem_or order) at_ (length ops) r operands)
             end
    end.
  Proof. reflexivity. Qed.
  Lemma ep_and at_ ops : ep at_ (And ops) =
    match and_loop at_ O false [] ops with
    | Return r => r
    | Fallthrough differs operands =>
        if negb differs then Some (And ops)
        else match operands with
             | [] => Some NONE
             | r :: operands => Some (fold_ops (sem_and order) at_ (length ops) r operands)
             end
    end.
  Proof. reflexivity. Qed.

  Lemma or_loop_sound at_ l : (forall s, In s l -> forall a, val_opt (ep a s) = ev s) ->
    forall i d operands,
    match or_loop at_ i d operands l with
    | Return r => r = Some NONE /\ existsb ev l = true
    | Fallthrough d' operands' => existsb ev operands' = existsb ev operands || existsb ev l
    end.
  Proof.
    induction l as [|c l IH]; intros H i d operands; cbn [or_loop existsb].
    - rewrite orb_false_r. reflexivity.
    - pose proof (H c (or_introl eq_refl) (i :: at_)) as Hc.
      specialize (IH (fun s Hs => H s (or_intror Hs))).
      destruct (ep (i :: at_) c) as [e|]; cbn [val_opt] in Hc.
      + destruct (sem_eqb e NONE) eqn:Ee.
        * apply sem_eqb_eq in Ee. subst e. rewrite ev_NONE in Hc. rewrite <- Hc. auto.
        * fold (or_loop at_). specialize (IH (S i) (d || sem_eqb c e) (operands ++ [e])).
          destruct (or_loop at_ (S i) (d || sem_eqb c e) (operands ++ [e]) l).
          -- destruct IH as [-> ->]. rewrite orb_true_r. auto.
          -- rewrite IH, existsb_app. cbn [existsb]. rewrite Hc, orb_false_r, orb_assoc. reflexivity.
      + fold (or_loop at_). rewrite orb_false_r. specialize (IH (S i) d operands).
        destruct (or_loop at_ (S i) d operands l).
        * destruct IH as [-> ->]. rewrite orb_true_r. auto.
        * rewrite IH, <- Hc. reflexivity.
  Qed.
  Lemma and_loop_sound at_ l : (forall s, In s l -> forall a, val_opt (ep a s) = ev s) ->
    forall i d operands,
    match and_loop at_ i d operands l with
    | Return r => r = None /\ forallb ev l = false
    | Fallthrough d' operands' => forallb ev operands' = forallb ev operands && forallb ev l
    end.
  Proof.
    induction l as [|c l IH]; intros H i d operands; cbn [and_loop forallb].
    - rewrite andb_true_r. reflexivity.
    - pose proof (H c (or_introl eq_refl) (i :: at_)) as Hc.
      specialize (IH (fun s Hs => H s (or_intror Hs))).
      destruct (ep (i :: at_) c) as [e|]; cbn [val_opt] in Hc.
      + fold (and_loop at_). destruct (sem_eqb e NONE) eqn:Ee.
        * apply sem_eqb_eq in Ee. subst e. rewrite ev_NONE in Hc. rewrite <- Hc. cbn [andb].
          apply IH.
        * specialize (IH (S i) (d || sem_eqb c e) (operands ++ [e])).
          destruct (and_loop at_ (S i) (d || sem_eqb c e) (operands ++ [e]) l).
          -- destruct IH as [-> ->]. rewrite andb_false_r. auto.
          -- rewrite IH, forallb_app. cbn [forallb]. rewrite Hc, andb_true_r, andb_assoc. reflexivity.
      + rewrite <- Hc. auto.
  Qed.

  Lemma eval_precedence_sound : forall s a, val_opt (ep a s) = ev s.
  Proof.
    induction s as [r p d | n | ops IH | ops IH] using sem_ind'; intros a.
    - reflexivity.
    - cbn [eval_precedence evaluate]. destruct (precpred cur n); [apply ev_NONE | reflexivity].
    - rewrite ep_and. pose proof (and_loop_sound a ops IH O false []) as L.
      destruct (and_loop a 0 false [] ops) as [r | d operands].
      + destruct L as [-> E]. cbn [val_opt evaluate]. auto.
      + destruct d; cbn [negb]; [|reflexivity]. cbn [forallb andb] in L. cbn [evaluate]. rewrite <- L.
        destruct operands as [|x operands]; cbn [val_opt]; [apply ev_NONE|]. apply fold_and_eval.
    - rewrite ep_or. pose proof (or_loop_sound a ops IH O false []) as L.
      destruct (or_loop a 0 false [] ops) as [r | d operands].
      + destruct L as [-> E]. cbn [val_opt evaluate]. rewrite E. apply ev_NONE.
      + destruct d; cbn [negb]; [|reflexivity]. cbn [existsb orb] in L. cbn [evaluate]. rewrite <- L.
        destruct operands as [|x operands]; cbn [val_opt]; [reflexivity|]. apply fold_or_eval.
  Qed.
End Eval.

(** ** C30: what precedence evaluation decides *)
Section Decide.
  Variable cur : Z.
  Variable order : list nat -> list sem -> list sem.
  Hypothesis Hord : reorders order.
  Notation ep := (eval_precedence cur order).

  Lemma order_single at_ x : order at_ [x] = [x].
  Proof. apply Permutation_length_1_inv. apply Permutation_sym. apply Hord. Qed.

  Lemma set_insert_nil x : set_insert [] x = [x].
  Proof. reflexivity. Qed.

  Lemma new_and_prec at_ n m : exists k, new_and order at_ (Precedence n) (Precedence m) = Precedence k.
  Proof.
    unfold new_and. rewrite set_insert_nil. unfold set_insert. cbn [existsb sem_eqb orb].
    destruct (m =? n) eqn:E; cbn [orb app filter_precedence_predicate filter negb is_precedence min_prec existsb].
    - rewrite order_single. eauto.
    - destruct (n <=? m); rewrite order_single; eauto.
  Qed.
  Lemma new_or_prec at_ n m : exists k, new_or order at_ (Precedence n) (Precedence m) = Precedence k.
  Proof.
    unfold new_or. rewrite set_insert_nil. unfold set_insert. cbn [existsb sem_eqb orb].
    destruct (m =? n) eqn:E; cbn [orb app filter_precedence_predicate filter negb is_precedence max_prec existsb].
    - rewrite order_single. eauto.
    - destruct (n <=? m); rewrite order_single; eauto.
  Qed.

  Definition simple (s : sem) : Prop := s = NONE \/ exists n, s = Precedence n.

  Lemma built_simple s : built order s -> simple s.
  Proof.
    revert s. apply (built_mut order (fun s _ => simple s)
      (fun o _ => match o with Some s => simple s | None => True end)).
    - intros n. right. eauto.
    - intros at_ [a|] [b|] _ Ha _ Hb; cbn [sem_and].
      + destruct (sem_eqb a NONE) eqn:Ea; [assumption|]. destruct (sem_eqb b NONE) eqn:Eb; [assumption|].
        apply sem_eqb_neq in Ea, Eb. destruct Ha as [? | (n & ->)]; [contradiction|].
        destruct Hb as [? | (m & ->)]; [contradiction|]. right. apply new_and_prec.
      + assumption.
      + assumption.
      + left. reflexivity.
    - intros at_ [a|] [b|] _ Ha _ Hb; cbn [sem_or].
      + destruct (sem_eqb a NONE || sem_eqb b NONE) eqn:E; [left; reflexivity|].
        apply orb_false_iff in E. destruct E as [Ea Eb].
        apply sem_eqb_neq in Ea, Eb. destruct Ha as [? | (n & ->)]; [contradiction|].
        destruct Hb as [? | (m & ->)]; [contradiction|]. right. apply new_or_prec.
      + assumption.
      + assumption.
      + left. reflexivity.
    - exact I.
    - intros s _ H. exact H.
  Qed.

  Lemma and_loop_all_true at_ ops : (forall s, In s ops -> exists n, s = Precedence n /\ cur <= n) ->
    forall i operands, and_loop cur order at_ i false operands ops = Fallthrough false operands.
  Proof.
    induction ops as [|c ops IH]; intros H i operands; cbn [and_loop]; [reflexivity|].
    destruct (H c (or_introl eq_refl)) as (n & -> & Hn). cbn [eval_precedence]. unfold precpred.
    replace (n >=? cur) with true by lia. cbn [sem_eqb orb]. change (sem_eqb NONE NONE) with true. cbv iota.
    fold (and_loop cur order at_). apply IH. intros s Hs. apply H. right. assumption.
  Qed.
  Lemma or_loop_all_false at_ ops : (forall s, In s ops -> exists n, s = Precedence n /\ n < cur) ->
    forall i operands, or_loop cur order at_ i false operands ops = Fallthrough false operands.
  Proof.
    induction ops as [|c ops IH]; intros H i operands; cbn [or_loop]; [reflexivity|].
    destruct (H c (or_introl eq_refl)) as (n & -> & Hn). cbn [eval_precedence]. unfold precpred.
    replace (n >=? cur) with false by lia. cbn [orb].
    fold (or_loop cur order at_). apply IH. intros s Hs. apply H. right. assumption.
  Qed.
  Lemma and_loop_some_false at_ ops : (forall s, In s ops -> exists n, s = Precedence n) ->
    (exists n, In (Precedence n) ops /\ n < cur) ->
    forall i d operands, and_loop cur order at_ i d operands ops = Return None.
  Proof.
    induction ops as [|c ops IH]; intros H (m & Hin & Hm) i d operands; cbn [and_loop]; [destruct Hin|].
    destruct (H c (or_introl eq_refl)) as (n & ->). cbn [eval_precedence]. unfold precpred.
    destruct (n >=? cur) eqn:C; [|reflexivity].
    change (sem_eqb NONE NONE) with true. cbv iota. fold (and_loop cur order at_). apply IH.
    - intros s Hs. apply H. right. assumption.
    - destruct Hin as [E | Hin]; [inversion E; lia|]. eauto.
  Qed.
  Lemma or_loop_some_true at_ ops : (forall s, In s ops -> exists n, s = Precedence n) ->
    (exists n, In (Precedence n) ops /\ cur <= n) ->
    forall i d operands, or_loop cur order at_ i d operands ops = Return (Some NONE).
  Proof.
    induction ops as [|c ops IH]; intros H (m & Hin & Hm) i d operands; cbn [or_loop]; [destruct Hin|].
    destruct (H c (or_introl eq_refl)) as (n & ->). cbn [eval_precedence]. unfold precpred.
    destruct (n >=? cur) eqn:C; [reflexivity|].
    fold (or_loop cur order at_). apply IH.
    - intros s Hs. apply H. right. assumption.
    - destruct Hin as [E | Hin]; [inversion E; lia|]. eauto.
  Qed.

  Lemma precedence_folded at_ n m :
    sem_and order at_ (Some (Precedence n)) (Some (Precedence m)) = Precedence (Z.min n m) /\
    sem_or order at_ (Some (Precedence n)) (Some (Precedence m)) = Precedence (Z.max n m).
  Proof.
    cbn [sem_and sem_or sem_eqb NONE orb]. unfold new_and, new_or. rewrite set_insert_nil. unfold set_insert.
    cbn [existsb sem_eqb orb].
    destruct (m =? n) eqn:E; cbn [orb app filter_precedence_predicate filter negb is_precedence min_prec max_prec existsb].
    - rewrite order_single. split; f_equal; lia.
    - destruct (n <=? m) eqn:C; cbn [orb]; rewrite !order_single; split; f_equal; lia.
  Qed.

  Lemma order_pair at_ x y : order at_ [x; y] = [x; y] \/ order at_ [x; y] = [y; x].
  Proof. apply Permutation_length_2_inv. apply Permutation_sym. apply Hord. Qed.

  Lemma mixed_tree_unchanged at_ n m r p d :
    n < cur -> cur <= m -> (r <> -1 \/ p <> -1 \/ d = true) ->
    let t := sem_or order at_ (Some (Precedence n))
               (Some (sem_and order at_ (Some (Precedence m)) (Some (Predicate r p d)))) in
    In t [Or [Precedence n; And [Precedence m; Predicate r p d]];
          Or [Precedence n; And [Predicate r p d; Precedence m]];
          Or [And [Precedence m; Predicate r p d]; Precedence n];
          Or [And [Predicate r p d; Precedence m]; Precedence n]] /\
    eval_precedence cur order at_ t = Some t.
  Proof.
    intros Hn Hm Hp.
    assert (NN : sem_eqb (Predicate r p d) NONE = false).
    { apply sem_eqb_neq. intros E. inversion E; subst. intuition discriminate. }
    assert (A : exists ops, sem_and order at_ (Some (Precedence m)) (Some (Predicate r p d)) = And ops /\
                (ops = [Precedence m; Predicate r p d] \/ ops = [Predicate r p d; Precedence m])).
    { cbn [sem_and]. rewrite NN. cbn [sem_eqb NONE]. unfold new_and. rewrite set_insert_nil. unfold set_insert.
      cbn [existsb sem_eqb orb app filter_precedence_predicate filter negb is_precedence min_prec existsb].
      destruct (order_pair at_ (Predicate r p d) (Precedence m)) as [-> | ->]; eauto. }
    destruct A as (ops & EA & Hops).
    assert (EE : forall i, eval_precedence cur order i (And ops) = Some (Predicate r p d)).
    { intros i. rewrite ep_and. destruct Hops as [-> | ->];
        cbn [and_loop eval_precedence app orb]; unfold precpred; replace (m >=? cur) with true by lia;
        change (sem_eqb NONE NONE) with true; rewrite NN, sem_eqb_refl; cbv iota; rewrite ?orb_true_r; reflexivity. }
    assert (T : let t := sem_or order at_ (Some (Precedence n)) (Some (And ops)) in
                t = Or [Precedence n; And ops] \/ t = Or [And ops; Precedence n]).
    { cbn [sem_or sem_eqb NONE orb]. unfold new_or. rewrite set_insert_nil. unfold set_insert.
      cbn [existsb sem_eqb orb app filter_precedence_predicate filter negb is_precedence max_prec existsb].
      destruct (order_pair at_ (And ops) (Precedence n)) as [-> | ->]; auto. }
    intros t. subst t. rewrite EA. cbv zeta in T. split.
    - destruct T as [-> | ->]; destruct Hops as [-> | ->]; cbn [In]; auto 6.
    - assert (C : sem_eqb (And ops) (Predicate r p d) = false) by reflexivity.
      destruct T as [-> | ->]; rewrite ep_or; cbn [or_loop]; rewrite EE; cbn [eval_precedence]; unfold precpred;
        replace (n >=? cur) with false by lia; rewrite NN, C; reflexivity.
  Qed.
End Decide.
