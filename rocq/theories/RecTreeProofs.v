(** The histories of generated parsers are histories of generated rule functions (C93). *)
From Coq Require Import ZArith List Bool Lia.
From Verif Require Import Outcome IntervalSetModel PredContextModel AtnModel AtnSpec Ll1Model Ll1Spec ParserModel.
From Verif Require ParserSpec ParserRunProofs.
From Verif Require Import RecSpec.
Import ListNotations.
Local Open Scope Z_scope.

Section Tree.
  Variable a : atn.
  Variable plan : Z -> Z -> list call.
  Variable plain : Z -> bool.
  Variable recursive : Z -> bool.
  Hypothesis Hwf : well_formed a.
  Hypothesis Hfit : plan_fits a plan recursive.
  Hypothesis Hnamed : named_rules a.
  Notation along := (along a plan plain recursive).
  Notation generated := ParserSpec.generated.

  Lemma looks_generated r l : looks l -> Forall (generated r) l.
  Proof. intros [->|(k & _ & ->)]; [constructor|]. constructor; cbn; auto. Qed.
  Lemma label_generated r t c : matches_label t c -> generated r c.
  Proof. destruct t; cbn; try contradiction; try (intros (b & -> & _); exact I); intros ->; exact I. Qed.
  Lemma leads_rule i t : leads a i t -> match t with RuleTr _ f _ _ => rule_of a f = rule_of a i | _ => rule_of a (get_target t) = rule_of a i end.
  Proof.
    intros (s & E & NS & HI). destruct (proj2 Hwf _ _ E) as (_ & W). destruct (W NS _ HI) as (_ & _ & K).
    assert (Q : rule_of a i = st_rule s) by (unfold rule_of; rewrite E; reflexivity). rewrite Q. destruct t; intuition.
  Qed.
  Lemma calls_rule_generated r rule g prec body : Forall (generated (recursive rule)) body -> generated r (calls_rule plain recursive rule g prec body).
  Proof. unfold calls_rule. intros H. destruct (recursive rule); cbn; now apply ParserRunProofs.generated_forall. Qed.

  Lemma along_generated : forall from i b cs, along from i b cs -> Forall (generated (recursive (rule_of a i))) cs.
  Proof.
    intros from i b cs H. induction H;
      repeat (apply Forall_app; split); try apply Hfit; try (now apply looks_generated);
      try (repeat constructor; fail).
    - apply leads_rule in H. assert (rule_of a (get_target t) = rule_of a i) as Q by (destruct t; cbn in H1; try contradiction; exact H).
      rewrite Q in IHalong. constructor; [exact I|]. constructor; [eapply label_generated; eauto | exact IHalong].
    - apply leads_rule in H. assert (rule_of a (get_target t) = rule_of a i) as Q by (destruct t; cbn in H0; try contradiction; exact H).
      rewrite Q in IHalong. exact IHalong.
    - apply leads_rule in H. cbn in H. rewrite H in IHalong. constructor; [exact I|]. constructor; [exact I|]. exact IHalong.
    - apply leads_rule in H. cbn in H. rewrite H in IHalong. constructor; [exact I|]. exact IHalong.
    - pose proof (Hnamed _ _ _ _ _ H) as Q. apply leads_rule in H. rewrite H in IHalong2. rewrite Q in IHalong1.
      constructor; [exact I|]. constructor; [now apply calls_rule_generated | exact IHalong2].
  Qed.
  Lemma along_rule_call rule start prec b cs : along (-1) start b cs -> rule_of a start = rule -> ParserSpec.rule_call (calls_rule plain recursive rule start prec cs).
  Proof.
    intros H <-. apply along_generated in H. unfold calls_rule. destruct (recursive (rule_of a start)); exact H.
  Qed.
End Tree.
