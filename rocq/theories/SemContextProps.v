(** C28, C29, C30: predicate trees. *)
From Coq Require Import ZArith List Bool Lia Permutation.
From Verif Require Import SemContextModel SemContextSpec SemContextProofs.
Import ListNotations.
Local Open Scope Z_scope.

(** C28, meaning of [evaluate]: it decides the truth of the tree. *)
Theorem C28_evaluate_is_truth : forall ctx user cur (outer : ctx) s,
  evaluate ctx user cur outer s = true <-> holds ctx user cur outer s.
Proof. exact evaluate_holds. Qed.
Print Assumptions C28_evaluate_is_truth.

(** C28, [and]: for every oracle, precedence, pair of trees and hash-set order,
    with an absent operand counting as true. *)
Theorem C28_and_is_conjunction : forall ctx user cur order (outer : ctx) at_ a b,
  reorders order -> none_is_true user ->
  (holds ctx user cur outer (sem_and order at_ a b) <->
   (forall s, a = Some s -> holds ctx user cur outer s) /\
   (forall s, b = Some s -> holds ctx user cur outer s)).
Proof.
  intros ctx user cur order outer at_ a b Hord Hnone.
  rewrite <- evaluate_holds, sem_and_eval, andb_true_iff by assumption.
  assert (V : forall o, val_and ctx user cur outer o = true <->
                        forall s, o = Some s -> holds ctx user cur outer s).
  { intros [s|]; cbn [val_and].
    - rewrite evaluate_holds. split; [intros H s' E; inversion E; subst; exact H | intros H; apply H; reflexivity].
    - split; [discriminate | reflexivity]. }
  rewrite !V. reflexivity.
Qed.
Print Assumptions C28_and_is_conjunction.

(** C28, [or] of two present operands. *)
Theorem C28_or_is_disjunction : forall ctx user cur order (outer : ctx) at_ a b,
  reorders order -> none_is_true user ->
  (holds ctx user cur outer (sem_or order at_ (Some a) (Some b)) <->
   holds ctx user cur outer a \/ holds ctx user cur outer b).
Proof.
  intros ctx user cur order outer at_ a b Hord Hnone.
  rewrite <- evaluate_holds, sem_or_eval, orb_true_iff, !evaluate_holds by assumption. reflexivity.
Qed.
Print Assumptions C28_or_is_disjunction.

(** C28, [or] with absent operands: a single absent operand is ignored, two
    absent operands give the always-true context. *)
Theorem C28_or_absent : forall order at_ a,
  sem_or order at_ None (Some a) = a /\ sem_or order at_ (Some a) None = a /\
  sem_or order at_ None None = NONE.
Proof. intros. repeat split. Qed.
Print Assumptions C28_or_absent.

(** C28, "precedence predicates folded to a single one". *)
Theorem C28_precedence_folded : forall order at_ n m,
  reorders order ->
  sem_and order at_ (Some (Precedence n)) (Some (Precedence m)) = Precedence (Z.min n m) /\
  sem_or order at_ (Some (Precedence n)) (Some (Precedence m)) = Precedence (Z.max n m).
Proof. intros; apply precedence_folded; assumption. Qed.
Print Assumptions C28_precedence_folded.

(** A tree with a user predicate, a nested operator and two precedence
    predicates; the oracle is not constant; the order reverses. *)
Definition rev_order : list nat -> list sem -> list sem := fun _ l => rev l.
Lemma rev_order_reorders : reorders rev_order.
Proof. intros a l. apply Permutation_sym, Permutation_rev. Qed.
Definition demo_user : option unit -> Z -> Z -> bool := fun o r p => if r =? -1 then true else match o with Some _ => p =? 3 | None => false end.

Example C28_nonvacuous :
  reorders rev_order /\ none_is_true demo_user /\
  sem_and rev_order [] (Some (And [Predicate 1 3 true; Precedence 4]))
                       (Some (Or [Predicate 1 2 false; Precedence 7]))
    = And [Precedence 4; Or [Predicate 1 2 false; Precedence 7]; Predicate 1 3 true] /\
  sem_and rev_order [] (Some (And [Predicate 1 3 true; Precedence 4])) (Some (Precedence 2))
    = And [Precedence 2; Predicate 1 3 true] /\
  sem_or rev_order [] (Some (Or [Predicate 1 3 true; Precedence 4])) (Some (Precedence 2))
    = Or [Precedence 4; Predicate 1 3 true] /\
  evaluate unit demo_user 4 tt (And [Precedence 4; Or [Predicate 1 2 false; Precedence 7]; Predicate 1 3 true]) = true /\
  evaluate unit demo_user 5 tt (And [Precedence 4; Or [Predicate 1 2 false; Precedence 7]; Predicate 1 3 true]) = false.
Proof. split; [apply rev_order_reorders|]. vm_compute. repeat split. Qed.

(** C29: [eval_precedence] returns None only for a false tree, and otherwise a
    tree with the same truth value, for every oracle, precedence and hash-set
    order. *)
Theorem C29_eval_precedence_sound : forall ctx user cur order (outer : ctx) at_ s,
  reorders order -> none_is_true user ->
  match eval_precedence cur order at_ s with
  | None => ~ holds ctx user cur outer s
  | Some r => holds ctx user cur outer r <-> holds ctx user cur outer s
  end.
Proof.
  intros ctx user cur order outer at_ s Hord Hnone.
  pose proof (eval_precedence_sound ctx user cur order outer Hord Hnone s at_) as E.
  destruct (eval_precedence cur order at_ s) as [r|]; cbn [val_opt] in E; rewrite <- !evaluate_holds.
  - rewrite E. reflexivity.
  - rewrite <- E. discriminate.
Qed.
Print Assumptions C29_eval_precedence_sound.

Example C29_nonvacuous :
  eval_precedence 5 rev_order [] (And [Predicate 1 3 true; Precedence 6; Or [Precedence 2; Predicate 2 2 false]])
    = Some (And [Predicate 2 2 false; Predicate 1 3 true]) /\
  eval_precedence 5 rev_order [] (And [Predicate 1 3 true; Precedence 4]) = None.
Proof. vm_compute. split; reflexivity. Qed.

(** C30 is false: the "did anything change" flag is inverted (line 81 / 111), so
    a tree none of whose operands evaluates to itself is returned unchanged.
    Every conjunction of satisfied precedence predicates is returned as it is
    (instead of the trivially true context), and every disjunction of
    unsatisfied ones is returned as it is (instead of None). *)
Theorem C30_precedence_trees_decided_refuted : forall cur order at_ ops,
  (forall s, In s ops -> exists n, s = Precedence n /\ cur <= n) ->
  forall ops', (forall s, In s ops' -> exists n, s = Precedence n /\ n < cur) ->
  prec_only (And ops) /\ prec_only (Or ops') /\
  eval_precedence cur order at_ (And ops) = Some (And ops) /\
  eval_precedence cur order at_ (Or ops') = Some (Or ops').
Proof.
  intros cur order at_ ops H ops' H'.
  split; [constructor; intros s Hs; destruct (H s Hs) as (n & -> & _); constructor|].
  split; [constructor; intros s Hs; destruct (H' s Hs) as (n & -> & _); constructor|].
  split.
  - rewrite ep_and, and_loop_all_true by exact H. reflexivity.
  - rewrite ep_or, or_loop_all_false by exact H'. reflexivity.
Qed.
Print Assumptions C30_precedence_trees_decided_refuted.

(** The same defect on a tree that [and]/[or] do build (precedence predicates
    mixed with a user predicate): both precedence predicates are decided at the
    current precedence, and both remain in the result. *)
Theorem C30_mixed_tree_not_simplified_refuted : forall cur order at_ n m r p d,
  reorders order -> n < cur -> cur <= m -> (r <> -1 \/ p <> -1 \/ d = true) ->
  let t := sem_or order at_ (Some (Precedence n))
             (Some (sem_and order at_ (Some (Precedence m)) (Some (Predicate r p d)))) in
  In t [Or [Precedence n; And [Precedence m; Predicate r p d]];
        Or [Precedence n; And [Predicate r p d; Precedence m]];
        Or [And [Precedence m; Predicate r p d]; Precedence n];
        Or [And [Predicate r p d; Precedence m]; Precedence n]] /\
  eval_precedence cur order at_ t = Some t.
Proof. intros; apply mixed_tree_unchanged; assumption. Qed.
Print Assumptions C30_mixed_tree_not_simplified_refuted.

(** C30, partial: what is decided.  Missing: conjunctions of several satisfied
    and disjunctions of several unsatisfied precedence predicates (above).
    (1) Every tree built from precedence predicates with the public combinators
    is decided: None if it is false, the trivially true context if it is true. *)
Theorem C30_built_trees_decided_partial : forall ctx user cur order (outer : ctx) at_ s,
  reorders order -> none_is_true user -> built order s ->
  eval_precedence cur order at_ s = Some NONE /\ holds ctx user cur outer s \/
  eval_precedence cur order at_ s = None /\ ~ holds ctx user cur outer s.
Proof.
  intros ctx user cur order outer at_ s Hord Hnone Hb.
  destruct (built_simple order Hord s Hb) as [-> | (n & ->)].
  - left. split; [reflexivity|]. apply H_user. exact Hnone.
  - cbn [eval_precedence]. unfold precpred. destruct (n >=? cur) eqn:C.
    + left. split; [reflexivity|]. constructor. lia.
    + right. split; [reflexivity|]. intros H. inversion H; lia.
Qed.
Print Assumptions C30_built_trees_decided_partial.

(** (2) A flat conjunction with an unsatisfied member gives None and a flat
    disjunction with a satisfied member gives the trivially true context. *)
Theorem C30_flat_decided_partial : forall cur order at_ ops,
  (forall s, In s ops -> exists n, s = Precedence n) ->
  ((exists n, In (Precedence n) ops /\ n < cur) -> eval_precedence cur order at_ (And ops) = None) /\
  ((exists n, In (Precedence n) ops /\ cur <= n) -> eval_precedence cur order at_ (Or ops) = Some NONE).
Proof.
  intros cur order at_ ops H. split; intros E.
  - rewrite ep_and, and_loop_some_false by assumption. reflexivity.
  - rewrite ep_or, or_loop_some_true by assumption. reflexivity.
Qed.
Print Assumptions C30_flat_decided_partial.

Example C30_nonvacuous :
  built rev_order (sem_and rev_order [] (Some (sem_or rev_order [1%nat] (Some (Precedence 3)) (Some (Precedence 8)))) (Some (Precedence 5))) /\
  eval_precedence 5 rev_order [] (sem_and rev_order [] (Some (sem_or rev_order [1%nat] (Some (Precedence 3)) (Some (Precedence 8)))) (Some (Precedence 5))) = Some NONE /\
  eval_precedence 6 rev_order [] (sem_and rev_order [] (Some (sem_or rev_order [1%nat] (Some (Precedence 3)) (Some (Precedence 8)))) (Some (Precedence 5))) = None /\
  eval_precedence 5 rev_order [] (And [Precedence 5; Precedence 6]) = Some (And [Precedence 5; Precedence 6]) /\
  eval_precedence 5 rev_order [] (Or [Precedence 3; Precedence 4]) = Some (Or [Precedence 3; Precedence 4]) /\
  eval_precedence 5 rev_order [] (Or [Precedence 3; And [Precedence 7; Predicate 1 2 false]])
     = Some (Or [Precedence 3; And [Precedence 7; Predicate 1 2 false]]).
Proof.
  split; [|vm_compute; repeat split].
  repeat constructor.
Qed.
