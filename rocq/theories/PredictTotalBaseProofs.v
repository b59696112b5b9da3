(** Computations with fuel that come back. *)
From Coq Require Import ZArith List Bool Lia.
From Verif Require Import Outcome.
Import ListNotations.
Local Open Scope outcome_scope.

(** [f] comes back with a result that satisfies [P] *)
Definition tot {A} (f : nat -> outcome A) (P : A -> Prop) : Prop :=
  exists r, P r /\ exists n0, forall n, (n0 <= n)%nat -> f n = Val r.

Lemma tot_val {A} (r : A) (P : A -> Prop) : P r -> tot (fun _ => Val r) P.
Proof. intros H. exists r. split; [exact H|]. exists O. reflexivity. Qed.
Lemma tot_eq {A} (f : nat -> outcome A) r (P : A -> Prop) : (forall n, f n = Val r) -> P r -> tot f P.
Proof. intros E H. exists r. split; [exact H|]. exists O. auto. Qed.
Lemma tot_bind {A B} (f : nat -> outcome A) (g : nat -> A -> outcome B) P Q : tot f P -> (forall x, P x -> tot (fun n => g n x) Q) ->
  tot (fun n => obindo (f n) (g n)) Q.
Proof.
  intros (x & Hx & n1 & E1) H. destruct (H x Hx) as (y & Hy & n2 & E2). exists y. split; [exact Hy|]. exists (Nat.max n1 n2).
  intros n Hn. rewrite E1 by lia. cbn. apply E2. lia.
Qed.
(** a step that does not use the fuel *)
Lemma tot_step {A B} (o : outcome A) (g : nat -> A -> outcome B) P Q : (exists x, o = Val x /\ P x) -> (forall x, P x -> tot (fun n => g n x) Q) ->
  tot (fun n => obindo o (g n)) Q.
Proof. intros (x & -> & Hx) H. cbn. apply H, Hx. Qed.
Lemma tot_get {A B} (o : outcome A) (x : A) (g : nat -> A -> outcome B) Q : o = Val x -> tot (fun n => g n x) Q -> tot (fun n => obindo o (g n)) Q.
Proof. intros -> H. exact H. Qed.
Lemma tot_S {A} (f : nat -> outcome A) (g : nat -> outcome A) P : (forall n, g (S n) = f n) -> tot f P -> tot g P.
Proof.
  intros E (r & Hr & n0 & H). exists r. split; [exact Hr|]. exists (S n0). intros [|n] Hn; [lia|]. rewrite E. apply H. lia.
Qed.
Lemma tot_ext {A} (f g : nat -> outcome A) P : (forall n, g n = f n) -> tot f P -> tot g P.
Proof. intros E (r & Hr & n0 & H). exists r. split; [exact Hr|]. exists n0. intros n Hn. rewrite E. auto. Qed.
Lemma tot_weaken {A} (f : nat -> outcome A) (P Q : A -> Prop) : (forall x, P x -> Q x) -> tot f P -> tot f Q.
Proof. intros H (r & Hr & E). exists r. auto. Qed.

Lemma tot_if {A} (b : bool) (f g : nat -> outcome A) P : (b = true -> tot f P) -> (b = false -> tot g P) -> tot (fun n => if b then f n else g n) P.
Proof. destruct b; auto. Qed.

(** More fuel gives the same value. *)
Definition le_out {A} (o o' : outcome A) : Prop := o = NoFuel \/ o' = o.
Lemma le_refl {A} (o : outcome A) : le_out o o.
Proof. right. reflexivity. Qed.
Lemma le_bind {A B} (o o' : outcome A) (f f' : A -> outcome B) : le_out o o' -> (forall x, o = Val x -> le_out (f x) (f' x)) ->
  le_out (obindo o f) (obindo o' f').
Proof.
  intros [-> |E] H; [left; reflexivity|]. subst o'. destruct o as [x| |]; cbn; [apply H; reflexivity | right; reflexivity | right; reflexivity].
Qed.
Lemma le_val {A} (o o' : outcome A) r : le_out o o' -> o = Val r -> o' = Val r.
Proof. intros [H|H] E; congruence. Qed.
Lemma le_trans {A} (o o' o'' : outcome A) : le_out o o' -> le_out o' o'' -> le_out o o''.
Proof. unfold le_out. intros [H|H] [H'|H']; subst; auto. Qed.
Lemma mono_le {A} (f : nat -> outcome A) : (forall n, le_out (f n) (f (S n))) -> forall n m, (n <= m)%nat -> le_out (f n) (f m).
Proof. intros H n m. induction 1; [apply le_refl | eapply le_trans; eauto]. Qed.
Lemma tot_at {A} (f : nat -> outcome A) P n r : (forall n, le_out (f n) (f (S n))) -> tot f P -> f n = Val r -> P r.
Proof.
  intros M (r' & Hr & n0 & H) E. pose proof (H (Nat.max n n0) ltac:(lia)) as E'.
  pose proof (le_val _ _ _ (mono_le f M n (Nat.max n n0) ltac:(lia)) E). congruence.
Qed.
