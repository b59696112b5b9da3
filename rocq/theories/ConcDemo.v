(** Threads to try the properties of shared DFAs on: two parsers and a dump, and a parser
    whose listener parses. *)
From Coq Require Import ZArith List Bool Lia Permutation.
From Verif Require Import Outcome CharStreamModel TokenStreamModel TokenStreamSpec IntervalSetModel PredContextModel SemContextModel ConfigSetModel DfaModel AtnModel AtnSpec Ll1Model ParserModel PredictModel PredictLLSpec PredictTotalSpec.
From Verif Require Import ParserDemo PredictDemo PredictLLDemo PredictLLProps PredictTotalDemo PredictTotalProps.
From Verif Require Import ConcModel ConcSpec ConcProofs ConcReentryProofs ConcPredictModel ConcPredictSpec.
Import ListNotations.
Local Open Scope Z_scope.

(** ** Schedules *)
Section Sched.
  Context {D R V : Type}.
  Fixpoint schedule (l : list nat) (s : sys D R V) : sys D R V :=
    match l with
    | [] => s
    | i :: l =>
        match nth_error (threads s) i with
        | Some c => match next i (locks s) (dfas s) c with
                    | Some (L, d, e, c') => schedule l (Sys L d (put (threads s) i c') (trace s ++ e))
                    | None => schedule l s
                    end
        | None => schedule l s
        end
    end.
  Lemma scheduled : forall l (s : sys D R V), steps s (schedule l s).
  Proof.
    induction l as [|i l IH]; intros s; cbn; [constructor|]. destruct (nth_error (threads s) i) as [c|] eqn:E; [|apply IH].
    destruct (next i (locks s) (dfas s) c) as [[[[L d] e] c']|] eqn:N; [|apply IH].
    eapply steps_trans; [|apply IH]. econstructor; [constructor|]. destruct s. apply step_of with (c := c); [exact E|]. now apply next_move.
  Qed.
  Definition round_robin (n m : nat) : list nat := concat (repeat (seq 0 n) m).
End Sched.

(** ** "C A B" and "D A B" (PredictLLDemo), in the rule they have in common *)
Definition call (src : nat -> tok) (stack : list Z) (listen : report -> pthread) : request :=
  Request (common_seek src 0 50) (stream_at src [CConsume]) unit tt (fun _ _ _ _ => true) LL 0 stack 0 listen
    plain_order plain_alts one_hash no_dhash no_share 100.
Definition deaf (_ : report) : pthread := Stop tt.
Definition in_rule_r (q : request) (c : answer -> pthread) : pthread := Predict 1 (predict_job caller_atn 1 12 q) c.
Definition done (_ : answer) : pthread := Stop tt.
Definition three : list pthread := [in_rule_r (call cab [4; -1] deaf) done; in_rule_r (call dab [8; -1] deaf) done; Dump 1 (Stop tt)].
Definition new_dfas (_ : nat) : pdfa := dfa_new unit unit false.
Definition three_end := schedule (round_robin 3 60) (start new_dfas three).

Lemma cab_eof : eof_number cab 3.
Proof. split; [reflexivity|]. intros [|[|[|i]]] Hi; cbn; [discriminate..|lia]. Qed.
Lemma in_r_cab : in_progress caller_atn 0 1 [4; -1] [5].
Proof.
  apply (progress_call caller_atn 0 4 (sst 0 4 1 BasicState [RuleTr 10 5 1 0]) 10 5 1 0 [] [-1] []); try reflexivity.
  - discriminate.
  - apply progress_main.
Qed.
Lemma proper_cab listen : proper caller_atn 0 1 [5] (call cab [4; -1] listen).
Proof. apply (proper_common _ _ _ _ _ cab 0 50%nat 3%nat [CConsume]); [reflexivity|apply cab_eof|lia|vm_compute; reflexivity|exact in_r_cab]. Qed.
Lemma proper_dab listen : proper caller_atn 0 1 [15] (call dab [8; -1] listen).
Proof. apply (proper_common _ _ _ _ _ dab 0 50%nat 3%nat [CConsume]); [reflexivity|apply dab_eof|lia|vm_compute; reflexivity|exact in_r]. Qed.
Lemma call_hashing src stack listen : hashing_ok (call src stack listen).
Proof. split; [exact plain_orders|exact plain_contexts]. Qed.
(** what has happened: who, and with what answer *)
Definition answers (s : sys pdfa answer unit) : list (nat * option presult) :=
  flat_map (fun e => match e with Ended i _ r => [(i, match r with Val (_, p) => Some p | _ => None end)] | _ => [] end) (trace s).
Lemma three_answers : answers three_end = [(0%nat, Some (Predicted 1)); (1%nat, Some (Predicted 2))].
Proof. vm_compute. reflexivity. Qed.
Lemma answered_all s : forallb (fun x => match snd x with Some _ => true | None => false end) (answers s) = true -> forall i k, ~ In (Ended i k NoFuel) (trace s).
Proof.
  intros H i k I. rewrite forallb_forall in H. assert (J : In (i, None) (answers s)) by (apply in_flat_map; eexists; split; [exact I|left; reflexivity]).
  specialize (H _ J). discriminate.
Qed.
Lemma three_fuel : forall i k, ~ In (Ended i k NoFuel) (trace three_end).
Proof. apply answered_all. now rewrite three_answers. Qed.
Definition stopped (c : ctl pdfa answer unit) : bool := match c with Run (Stop _) [] => true | _ => false end.
Lemma stopped_finished s : forallb stopped (threads s) = true -> finished s.
Proof. intros H c I. rewrite forallb_forall in H. specialize (H c I). destruct c as [[v| |] [|]| |]; try discriminate. eauto. Qed.
Lemma three_finished : finished three_end.
Proof. apply stopped_finished. vm_compute. reflexivity. Qed.

(** ** A listener that parses "C A B" when it is told of a conflict in "D A B" *)
Definition nested (_ : report) : pthread := in_rule_r (call cab [4; -1] deaf) done.
Definition nested_call : request := call dab [8; -1] nested.
