(** C52: token names. *)
From Coq Require Import ZArith List Bool Lia.
From Verif Require Import TreeModel TreeSpec TreeProofs VocabModel VocabSpec VocabProofs.
Import ListNotations.
Local Open Scope Z_scope.

(** For every vocabulary and every token type, negative or not: the fallback chain. *)
Theorem C52_display_name : forall v t s, is_isize t -> fits v ->
  (get_display_name v t = s <-> display_is v t s).
Proof.
  intros v t s Ht Hf. pose proof (display_ok v t Ht Hf) as H. split; [intros <-; assumption|].
  intros H'. eapply display_fun; eassumption.
Qed.
Print Assumptions C52_display_name.

Theorem C52_literal_symbolic : forall v t, is_isize t -> fits v ->
  literal_is v t (get_literal_name v t) /\ symbolic_is v t (get_symbolic_name v t).
Proof. intros v t Ht Hf. split; [now apply literal_ok|now apply symbolic_ok]. Qed.
Print Assumptions C52_literal_symbolic.

(** A vocabulary made of one list of names: every given name is the display name; names beginning with
    a quote are the literal names, names beginning with an upper case letter the symbolic ones. *)
Theorem C52_from_token_names : forall up names v, from_token_names up names = v ->
  (forall t s, entry (display_names v) t s <-> entry names t s) /\
  (forall t s, entry (literal_names v) t s <-> entry names t s /\ exists r, s = 39 :: r) /\
  (forall t s, entry (symbolic_names v) t s <-> entry names t s /\ exists c r, s = c :: r /\ c <> 39 /\ up c = true) /\
  max_token_type v = Z.of_nat (length names) - 1.
Proof.
  intros up names v E. destruct (from_names_ok up names v E) as (H1 & H2 & H3 & H4 & H5 & H6).
  split; [intros t s; now rewrite H1|]. split; [|split; [|assumption]].
  - intros t s. rewrite H2. split; intros [H H']; split; auto.
    + destruct s as [|c s]; cbn in H'; [discriminate|]. apply Z.eqb_eq in H'. subst. eauto.
    + destruct H' as [r ->]. reflexivity.
  - intros t s. rewrite H3. split; intros [H H']; split; auto.
    + destruct s as [|c s]; cbn in H'; [discriminate|]. apply andb_prop in H'. destruct H' as [Hq Hu].
      exists c, s. repeat split; auto. destruct (Z.eqb_spec c 39); [discriminate|assumption].
    + destruct H' as (c & r & -> & Hq & Hu). cbn. rewrite Hu. now rewrite (proj2 (Z.eqb_neq _ _) Hq).
Qed.
Print Assumptions C52_from_token_names.

Definition small_vocab := vocab_new [None; Some [39; 43; 39]] [None; Some [80]; Some [73; 68]] None.
Example C52_nonvacuous : fits small_vocab /\ is_isize (-7) /\
  get_display_name small_vocab 1 = [39; 43; 39] /\ get_display_name small_vocab 2 = [73; 68] /\
  get_display_name small_vocab (-1) = [69; 79; 70] /\ get_display_name small_vocab 40 = [52; 48] /\
  get_display_name small_vocab (-7) = [45; 55].
Proof. unfold fits, is_isize. cbn. repeat split; lia. Qed.
