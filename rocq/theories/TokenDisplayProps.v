(** Properties of printed and copied tokens (C102). *)
From Coq Require Import ZArith List Bool Lia.
From Verif Require Import Text CharStreamModel FactoryModel TreeModel TreeSpec TreeProofs TokenDisplayModel TokenDisplaySpec TokenDisplayProofs.
Import ListNotations.
Local Open Scope Z_scope.

(** ** C102  A printed token shows what it is *)

(** What is printed: all the fields, in the form of [TokenDisplaySpec.printed], and the text with line
    breaks and tabs replaced ([TreeSpec.label_escape]); [<EOF>] for the end of the input. *)
Theorem C102_form : forall t, exists shown, printed (display t) (token_index t) (start t) (stop t) shown (token_type t) (channel t) (line t) (column t) /\
  label_escape (token_get_text t) shown /\ (token_type t = -1 -> shown = lit "<EOF>").
Proof.
  intros t. exists (shown_text t). split; [apply display_printed|]. split; [apply escape_label|].
  intros E. unfold shown_text, token_get_text. rewrite E. reflexivity.
Qed.
Print Assumptions C102_form.

(** It is one line. *)
Theorem C102_one_line : forall t c, In c (display t) -> c <> 9 /\ c <> 10 /\ c <> 13.
Proof. intros t. apply (printed_one_line _ _ _ _ _ _ _ _ _ (display_printed t)). intros c. apply quiet_escape. Qed.
Print Assumptions C102_one_line.

(** Whatever the texts contain (quotes, brackets, commas, things that look like the rest of a printed
    token), two tokens printed alike have the same number, place, type, line, column, the same channel
    (channels that are not positive are not told apart), and texts that are shown alike. *)
Theorem C102_numbers : forall t u, display t = display u ->
  token_index t = token_index u /\ start t = start u /\ stop t = stop u /\ token_type t = token_type u /\
  Z.max (channel t) 0 = Z.max (channel u) 0 /\ line t = line u /\ column t = column u /\
  exists shown, label_escape (token_get_text t) shown /\ label_escape (token_get_text u) shown.
Proof.
  intros t u E. pose proof (display_printed t) as P. rewrite E in P.
  destruct (printed_inj _ _ _ _ _ _ _ _ _ _ _ _ _ _ _ _ _ P (display_printed u)) as (E1 & E2 & E3 & E4 & E5 & E6 & E7 & E8).
  repeat (split; [assumption|]). exists (shown_text t). split; [apply escape_label|]. rewrite E4. apply escape_label.
Qed.
Print Assumptions C102_numbers.

(** The full claim, that also the texts are the same: not so, since backslashes are not escaped. *)
Definition prints_apart : Prop := forall t u, display t = display u -> token_get_text t = token_get_text u.
Theorem C102_text_refuted : ~ prints_apart.
Proof. intros H. discriminate (H (Token 1 0 0 1 0 1 0 [10] false) (Token 1 0 0 1 0 1 0 [92; 110] false) eq_refl). Qed.
Print Assumptions C102_text_refuted.
(** It is so for texts without backslashes. *)
Theorem C102_text_partial : forall t u, ~ In 92 (tk_text t) -> ~ In 92 (tk_text u) -> display t = display u -> token_get_text t = token_get_text u.
Proof.
  intros t u Nt Nu E. pose proof (display_printed t) as P. rewrite E in P.
  destruct (printed_inj _ _ _ _ _ _ _ _ _ _ _ _ _ _ _ _ _ P (display_printed u)) as (_ & _ & _ & E4 & E5 & _).
  assert (C : forall v, ~ In 92 (tk_text v) -> Forall (fun c => c <> 92 /\ (false = true -> c <> 183)) (token_get_text v)).
  { intros v N. apply Forall_forall. intros c I. split; [|discriminate]. intros ->. unfold token_get_text in I. destruct (token_type v =? EOF); [cbn in I; lia | contradiction]. }
  eapply escape_inj; [apply C, Nt | apply C, Nu | exact E4].
Qed.
Print Assumptions C102_text_partial.

(** Copies answer like the original and are printed like it; the public field of their text holds what
    the field of the original holds, or, for the copy that the trait provides, what it answers; a token that was given its number differs
    only in that. *)
Theorem C102_copies : forall t, same_answers t (clone t) /\ same_answers t (to_owned t) /\ same_answers t (default_to_owned t) /\
  display (clone t) = display t /\ display (to_owned t) = display t /\ display (default_to_owned t) = display t /\
  tk_text (clone t) = tk_text t /\ tk_text (to_owned t) = tk_text t /\ tk_text (default_to_owned t) = token_get_text t /\
  (forall v, token_index (set_token_index t v) = v /\ same_answers t (set_token_index (set_token_index t v) (token_index t))).
Proof.
  intros t. unfold same_answers, display, token_get_text, default_to_owned. cbn. unfold token_get_text. destruct (token_type t =? EOF); repeat split.
Qed.
Print Assumptions C102_copies.

(** a comment with a line break whose text looks like the end of a printed token *)
Example C102_nonvacuous :
  display (Token 7 1 3 9 2 1 4 (lit "',<8>,5:6]" ++ [10]) false) = lit "[@2,3:9='',<8>,5:6]\n',<7>1,1:4]" /\
  display (Token (-1) 0 10 9 3 2 0 (lit "x") false) = lit "[@3,10:9='<EOF>',<-1>,2:0]" /\
  (exists t u, display t = display u /\ t <> u /\ ~ In 92 (tk_text t) /\ ~ In 92 (tk_text u)).
Proof.
  split; [vm_compute; reflexivity|]. split; [vm_compute; reflexivity|].
  exists (Token 1 0 0 0 0 1 0 [97; 10] false), (Token 1 (-5) 0 0 0 1 0 [97; 10] true). split; [reflexivity|]. split; [discriminate|]. cbn. lia.
Qed.
