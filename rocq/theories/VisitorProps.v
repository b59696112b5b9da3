(** C104: a visitor whose methods visit nodes themselves computes what they say. *)
From Coq Require Import ZArith List Bool Lia.
From Verif Require Import Outcome TreeModel TreeSpec TreeProofs VisitorModel VisitorSpec VisitorProofs.
Import ListNotations.
Local Open Scope Z_scope.

(** Visiting a node ends in the state and with the result that the methods say,
    and in no other, whatever the temporary held before, and leaves the default
    in it. *)
Theorem C104_visit : forall V R (K : mvisitor V R) n v tmp v' tmp' r,
  (exists fuel, mvisit K fuel n (v, tmp) = Val ((v', tmp'), r)) <-> says K n v v' r /\ tmp' = m_default K.
Proof. intros. apply visit_iff. Qed.
Print Assumptions C104_visit.

(** The methods say one thing only. *)
Theorem C104_determined : forall V R (K : mvisitor V R) n v v1 r1 v2 r2,
  says K n v v1 r1 -> says K n v v2 r2 -> v1 = v2 /\ r1 = r2.
Proof. intros V R K. apply says_determined. Qed.
Print Assumptions C104_determined.

(** If methods visit nothing but nodes below their own (and the tree has no plain
    contexts, see C76), visiting comes back. *)
Theorem C104_comes_back : forall V R (K : mvisitor V R) n, descends K ->
  (forall x, within n x -> ~ plain_rule x) -> forall v tmp,
  exists v' r N, says K n v v' r /\
    forall fuel, (N <= fuel)%nat -> mvisit K fuel n (v, tmp) = Val ((v', m_default K), r).
Proof.
  intros V R K n D NP v tmp. destruct (says_total K D n NP v) as (v' & r & H).
  destruct (proj1 (complete K) _ _ _ _ H) as (N & E). exists v', r, N. split; auto.
  intros fuel L. unfold mvisit. now rewrite E.
Qed.
Print Assumptions C104_comes_back.

(** An evaluator (each method visits the children and combines their results)
    computes the value of the tree, and so does a visitor that overrides no
    method of a rule, with the aggregation of the results for the combination. *)
Theorem C104_value : forall R (leaf : node -> R) combine (K : mvisitor unit R) n,
  m_terminal K = (fun n v => Return v (leaf n)) -> m_error K = (fun n v => Return v (leaf n)) ->
  (forall x, within n x -> ~ plain_rule x) ->
  (forall n, m_rule K n = Some (visiting (combine n) (kids n) [])) \/
  (forall n, m_rule K n = None) /\ m_more K = (fun _ _ _ => true) /\
    (exists agg, m_aggregate K = (fun _ => agg) /\ forall n l, combine n l = fold_left agg l (m_default K)) ->
  forall tmp, exists fuel, mvisit K fuel n (tt, tmp) = Val ((tt, m_default K), value leaf combine n).
Proof.
  intros R leaf combine K n T E NP H tmp. apply visit_iff. split; auto.
  destruct H as [H|(H1 & H2 & agg & H3 & H4)].
  - now apply value_visits.
  - eapply value_default; eauto.
Qed.
Print Assumptions C104_value.

(** ** Example: a calculator for (2 + 3) * 4, with a method that leaves a result
    in the temporary on the way *)
Definition number (i : nat) (d : Z) : node := Rule i false 1 0 0 [Leaf (S i) false 5 [48 + d] 0].
Definition sum_node : node := Rule 10 false 2 0 0 [number 20 2; Leaf 12 false 6 [43] 0; number 30 3].
Definition product_node : node := Rule 40 false 3 0 0 [sum_node; Leaf 42 false 7 [42] 0; number 50 4].

Definition calc_method (n : node) : option (nat -> method nat Z) :=
  match n with
  | Rule _ _ 2 _ _ [a; _; b] => Some (fun v => Visit a (S v) (fun v x => Visit b v (fun v y => Return v (x + y))))
  | Rule _ _ 3 _ _ [a; op; b] =>
      Some (fun v => VisitNode op (S v) (fun v => Visit a v (fun v x => VisitNode b v (fun v =>
        Visit b v (fun v y => Return v (x * y))))))
  | _ => None
  end.
Definition calc : mvisitor nat Z :=
  MVisitor nat Z (-1)
    (fun n v => Return v (match n with Leaf _ _ 5 [c] _ => c - 48 | _ => 1000 end))
    (fun _ v => Return v 0) calc_method (fun _ _ r => r) (fun _ _ _ => true).

Example C104_nonvacuous :
  descends calc /\ (forall x, within product_node x -> ~ plain_rule x) /\
  mvisit calc 10 product_node (0%nat, 77) = Val ((2%nat, -1), 20) /\
  (exists K : mvisitor unit Z, m_terminal K = (fun n v => Return v 1) /\
     (forall n, m_rule K n = Some (visiting (fun l => fold_left Z.add l 0) (kids n) [])) /\
     value (fun _ => 1) (fun _ l => fold_left Z.add l 0) product_node = 5).
Proof.
  split; [|split; [|split; [reflexivity|]]].
  - split; [|split].
    + intros n v. constructor.
    + intros n v. constructor.
    + intros n f v H. cbn in H. destruct n as [|i p k x a cs]; [discriminate|].
      assert (B : forall c, In c cs -> below c (Rule i p k x a cs)).
      { intros c I. exists c. split; [exact I|constructor]. }
      destruct k as [|[|[|[|k]]]]; try discriminate.
      * destruct cs as [|c1 [|c2 [|c3 [|]]]]; try discriminate. injection H as <-.
        apply LD_visit; [apply B; cbn; auto|]. intros v1 r1. apply LD_visit; [apply B; cbn; auto|].
        intros v2 r2. constructor.
      * destruct cs as [|c1 [|c2 [|c3 [|]]]]; try discriminate. injection H as <-.
        apply LD_node; [apply B; cbn; auto|]. intros v1. apply LD_visit; [apply B; cbn; auto|].
        intros v2 r2. apply LD_node; [apply B; cbn; auto|]. intros v3. apply LD_visit; [apply B; cbn; auto|].
        intros v4 r4. constructor.
  - intros x Hx (i & k & y & a & cs & ->).
    repeat (apply within_inv in Hx; destruct Hx as [Hx|(? & Hc & Hx)]; [discriminate|];
            cbn in Hc; repeat (destruct Hc as [<-|Hc]);
            try contradiction).
    all: repeat (apply within_inv in Hx; destruct Hx as [Hx|(? & Hc & Hx)]; [discriminate|];
            cbn in Hc; repeat (destruct Hc as [<-|Hc]); try contradiction).
  - exists (MVisitor unit Z 0 (fun n v => Return v 1) (fun n v => Return v 1)
      (fun n => Some (visiting (fun l => fold_left Z.add l 0) (kids n) [])) (fun _ => Z.add) (fun _ _ _ => true)).
    split; [reflexivity|]. split; [reflexivity|reflexivity].
Qed.
