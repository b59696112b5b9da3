(** Property theorem C84 (src/dfa_serializer.rs, src/dfa.rs 141-170, src/parser.rs 664-681). *)
From Coq Require Import ZArith List Bool Lia Sorted.
From Coq Require Import ZifyBool ZifyNat.
From Verif Require Import Outcome Text ConfigSetModel SemContextModel DfaModel DumpModel DumpSpec DumpProofs TreeSpec TreeProofs MessageProofs.
Import ListNotations.
Local Open Scope Z_scope.

(** ** C84 *)
(** The dump has one line per cached transition, ordered by state and token type. *)
Theorem C84_lists_transitions : forall X E (d : dfa X E) name s, s0 d <> None -> to_string name d = Val s ->
  exists trs lines, s = concat lines /\ Forall2 (line_of name d) trs lines /\ StronglySorted listed_before trs /\
    forall i t j, In (i, t, j) trs <-> cached p_get_edge d i t j.
Proof.
  intros X E d name s S0 H. apply (dump_ok name (fun x => Val (name (x - 1))) 1 p_get_edge d s); auto.
  intros x l Q. now inversion Q.
Qed.
Print Assumptions C84_lists_transitions.

Theorem C84_lexer_lists_transitions : forall X E (d : dfa X E) s, s0 d <> None -> to_lexer_string d = Val s ->
  exists trs lines, s = concat lines /\ Forall2 (line_of (fun c => lit "'" ++ [c] ++ lit "'") d) trs lines /\ StronglySorted listed_before trs /\
    forall i c j, In (i, c, j) trs <-> cached l_get_edge d i c j.
Proof.
  intros X E d s S0 H. eapply (dump_ok (fun c => lit "'" ++ [c] ++ lit "'") _ 0 l_get_edge d s); [| |exact S0|exact H].
  - intros edges t. unfold l_get_edge, MIN_DFA_EDGE. now rewrite Z.sub_0_r, Z.add_0_r.
  - intros x l Q. rewrite Z.sub_0_r. cbn beta in Q. destruct (_ || _); [now inversion Q|discriminate].
Qed.
Print Assumptions C84_lexer_lists_transitions.

(** There is a dump unless a transition that is listed starts or ends in an accepting state with predicates
    (or leads nowhere); a lexer's edges are ASCII characters (C32), and its states have no predicates. *)
Theorem C84_defined : forall X E (d : dfa X E) name,
  (forall i t j, cached p_get_edge d i t j -> 0 <= j /\ (exists st, nth_error (dfa_states d) i = Some st /\ nameable st) /\
                                              exists st', nth_error (dfa_states d) (Z.to_nat j) = Some st' /\ nameable st') ->
  exists s, to_string name d = Val s.
Proof. intros X E d name H. apply (dump_val _ 1 p_get_edge d); eauto. Qed.
Print Assumptions C84_defined.
Theorem C84_lexer_defined : forall X E (d : dfa X E),
  (forall st, In st (dfa_states d) -> (length (d_edges st) <= 128)%nat) ->
  (forall i t j, cached l_get_edge d i t j -> 0 <= j /\ (exists st, nth_error (dfa_states d) i = Some st /\ nameable st) /\
                                              exists st', nth_error (dfa_states d) (Z.to_nat j) = Some st' /\ nameable st') ->
  exists s, to_lexer_string d = Val s.
Proof.
  intros X E d HL H. apply (dump_val _ 0 l_get_edge d); auto.
  intros i t j (st & N & G & _). rewrite Z.add_0_r. unfold l_get_edge, MIN_DFA_EDGE in G. rewrite Z.sub_0_r in G. apply slot_real in G as [G _].
  unfold vget in G. destruct (Z.ltb_spec t 0); [discriminate|]. assert (L : nth_error (d_edges st) (Z.to_nat t) <> None) by congruence.
  apply nth_error_Some in L. specialize (HL _ (nth_error_In _ _ N)). exists (lit "'" ++ [t] ++ lit "'").
  replace (_ || _) with true by lia. reflexivity.
Qed.
Print Assumptions C84_lexer_defined.

(** All decisions: a heading and the dump for each DFA that has states of its own, blank lines in between. *)
Definition used {X E} (x : Z * dfa X E) : bool :=
  if is_precedence_dfa (snd x) then (2 <? length (dfa_states (snd x)))%nat else (1 <? length (dfa_states (snd x)))%nat.
Definition section_of {X E} (name : Z -> text) (x : Z * dfa X E) (s : text) : Prop :=
  exists n body, decimal_of n (fst x) /\ to_string name (snd x) = Val body /\ s = lit "Decision " ++ n ++ lit ":" ++ [10] ++ body.
Fixpoint blank_between (l : list text) : text :=
  match l with
  | [] => []
  | [x] => x
  | x :: l => x ++ [10] ++ blank_between l
  end.
Theorem C84_dump_dfa : forall X E name (dfas : list (Z * dfa X E)) s, dump_dfa name dfas = Val s ->
  exists sections, Forall2 (section_of name) (filter used dfas) sections /\ s = blank_between sections.
Proof.
  intros X E name dfas s H. unfold dump_dfa in H.
  assert (K : forall b s, dump_loop name b dfas = Val s -> exists sections, Forall2 (section_of name) (filter used dfas) sections /\
    s = (match sections with [] => [] | _ => if b then [10] else [] end) ++ blank_between sections).
  { clear. induction dfas as [|[n d] dfas IH]; intros b s H; cbn [dump_loop] in H.
    - inversion H. exists []. split; [constructor|reflexivity].
    - cbn [filter]. destruct (_ >? _) eqn:Q.
      + replace (used (n, d)) with true by (unfold used; cbn [snd]; destruct (is_precedence_dfa d); lia).
        destruct (to_string name d) as [body| |] eqn:B; cbn [obindo] in H; try discriminate.
        destruct (dump_loop name true dfas) as [rest| |] eqn:R; cbn [obindo] in H; try discriminate. apply val_inj in H. subst s.
        destruct (IH _ _ R) as (l & F & ->). exists ((lit "Decision " ++ isize_to_string n ++ lit ":" ++ [10] ++ body) :: l). split.
        * constructor; auto. exists (isize_to_string n), body. split; [apply isize_to_string_ok|auto].
        * cbn [blank_between]. destruct l; rewrite ?app_nil_r, <- ?app_assoc; reflexivity.
      + replace (used (n, d)) with false by (unfold used; cbn [snd]; destruct (is_precedence_dfa d); lia). auto. }
  destruct (K _ _ H) as (l & F & ->). exists l. split; auto. destruct l; reflexivity.
Qed.
Print Assumptions C84_dump_dfa.

(** False of the code: an accepting state with predicates cannot be dumped. *)
Notation udfa := (dfa unit unit).
Notation empty_set := (new_base_config_set unit true).
Definition with_predicates : udfa :=
  Dfa unit unit [new_dfastate unit unit ERROR_DFA_STATE_REF empty_set;
                 DState unit unit 1 empty_set [0; 0; 2] false 0 None false [];
                 DState unit unit 2 empty_set [] true 0 None false [(1, NONE); (2, NONE)]] [] (Some 1) false.
Theorem C84_predicates_refuted : s0 with_predicates = Some 1 /\ cached p_get_edge with_predicates 1 1 2 /\
  forall name, to_string name with_predicates = Panics.
Proof.
  split; [reflexivity|]. split; [|intros name; reflexivity]. eexists. split; [reflexivity|]. split; [reflexivity|]. discriminate.
Qed.
Print Assumptions C84_predicates_refuted.

(** False of the code: the start states of a precedence decision are listed as if they were reached on tokens. *)
Theorem C84_precedence_refuted : exists d1 d2 s name,
  p_add_dfastate unit (fun _ _ => true) unit (fun _ => 0) (fun x => x) (dfa_new unit unit true) (new_dfastate unit unit 0 (set_read_only unit empty_set true)) = Val (d1, 2) /\
  set_precedence_start_state unit unit d1 3 2 = Val d2 /\
  to_string name d2 = Val s /\ s = lit "s0-B->s1" ++ [10] /\ name 2 = lit "B" /\
  (* no token leads out of any state that was looked up *)
  forall st, In st (dfa_states d1) -> d_edges st = [].
Proof.
  eexists _, _, _, (fun t => if t =? 2 then lit "B" else lit "A"). split; [reflexivity|]. split; [reflexivity|]. split; [reflexivity|].
  split; [reflexivity|]. split; [reflexivity|]. intros st [<-|[<-|[<-|[]]]]; reflexivity.
Qed.
Print Assumptions C84_precedence_refuted.

(** Two states that loop on A and leave on B and EOF. *)
Definition small : udfa :=
  Dfa unit unit [new_dfastate unit unit ERROR_DFA_STATE_REF empty_set;
                 DState unit unit 1 empty_set [0; 0; 1; 2] false 0 None false [];
                 DState unit unit 2 empty_set [3; ERROR_DFA_STATE_REF; 0; 0] false 0 None true [];
                 DState unit unit 3 empty_set [] true 2 None false []] [] (Some 1) false.
Definition small_name (t : Z) : text := if t =? -1 then lit "EOF" else if t =? 1 then lit "A" else lit "'b'".
Example C84_nonvacuous :
  s0 small <> None /\ cached p_get_edge small 1 2 2 /\
  (forall i t j, cached p_get_edge small i t j -> 0 <= j /\ (exists st, nth_error (dfa_states small) i = Some st /\ nameable st) /\
                                              exists st', nth_error (dfa_states small) (Z.to_nat j) = Some st' /\ nameable st') /\
  dump_dfa small_name [(0, small); (1, dfa_new unit unit true); (2, dfa_new unit unit false); (3, small)] =
    (let s := lit "s0-A->s0" ++ [10] ++ lit "s0-'b'->s1^" ++ [10] ++ lit "s1^-EOF->:s2=>2" ++ [10] in
     Val (lit "Decision 0:" ++ [10] ++ s ++ [10] ++ lit "Decision 3:" ++ [10] ++ s)) /\
  to_lexer_string (Dfa unit unit [new_dfastate unit unit ERROR_DFA_STATE_REF empty_set;
                 DState unit unit 1 empty_set (repeat 0 97 ++ [1; 2] ++ repeat 0 29) false 0 None false [];
                 DState unit unit 2 empty_set [] true 5 None false []] [] (Some 1) false) =
    Val (lit "s0-'a'->s0" ++ [10] ++ lit "s0-'b'->:s1=>5" ++ [10]).
Proof.
  split; [discriminate|]. split; [eexists; split; [reflexivity|]; split; [reflexivity|discriminate]|]. split; [|split; vm_compute; reflexivity].
  intros i t j (st & N & G & NE). apply slot_real in G as [G Z0]. unfold vget in G. destruct (t + 1 <? 0); [discriminate|].
  revert G. generalize (Z.to_nat (t + 1)) as k. intros k G.
  destruct i as [|[|[|[|i]]]]; cbn in N; try (destruct i; discriminate); injection N as <-; cbn in G.
  - destruct k; discriminate.
  - do 4 (destruct k as [|k]; [injection G as <-; try lia; (split; [lia|split; eexists; (split; [reflexivity|left; reflexivity])])|]). destruct k; discriminate.
  - destruct k as [|k]; [injection G as <-; split; [lia|]; split; eexists; (split; [reflexivity|]); [left; reflexivity|right; reflexivity]|].
    destruct k as [|k]; [injection G as <-; now elim NE|]. do 2 (destruct k as [|k]; [injection G as <-; lia|]). destruct k; discriminate.
  - destruct k; discriminate.
Qed.
