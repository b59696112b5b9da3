(** C31, C32, C64: DFA caches. *)
From Coq Require Import ZArith List Bool Lia.
From Verif Require Import Outcome PredContextModel PredContextSpec PredContextProofs.
From Verif Require Import SemContextModel ConfigSetModel ConfigSetSpec ConfigSetProofs DfaModel DfaSpec DfaProofs.
Import ListNotations.
Local Open Scope Z_scope.

(** C31.  On the DFA of a precedence decision, after any history of
    [set_precedence_start_state] calls (with real state numbers; number 0 is the
    placeholder state) the start state of [p] is the one most recently stored
    for [p]; negative precedences are never stored and never found.  Nothing
    panics. *)
Theorem C31_precedence_map : forall X E hist, (forall p s, In (p, s) hist -> s <> 0) ->
  exists d, store_all (set_precedence_start_state X E) (dfa_new X E true) hist = Val d /\
    forall p, get_precedence_start_state X E d p = Val (if 0 <=? p then latest hist p else None).
Proof.
  intros X E hist NZ.
  set (get := fun d p => match get_precedence_start_state X E d p with Val o => o | _ => None end).
  assert (Gv : forall d, prec_ok X E d -> forall p, get_precedence_start_state X E d p = Val (get d p)).
  { intros d (P & i & st & S0 & V) p. unfold get, get_precedence_start_state. rewrite P, S0, V. reflexivity. }
  destruct (store_all_latest (set_precedence_start_state X E) get (prec_ok X E) (fun p => 0 <=? p)) with (hist := hist) (s := dfa_new X E true)
    as (d & Ed & Pd & G).
  - intros d p v Pd Hv. destruct (prec_set_ok X E d p v Pd Hv) as (d' & E' & P' & G'). exists d'.
    split; [exact E'|]. split; [exact P'|]. intros k'. unfold get at 1. rewrite G'.
    destruct ((k' =? p) && (0 <=? p)); reflexivity.
  - split; [reflexivity|]. exists 1, (new_dfastate X E 1 (new_base_config_set X true)). split; reflexivity.
  - exact NZ.
  - exists d. split; [exact Ed|]. intros p. rewrite Gv by exact Pd. rewrite G.
    assert (N : get (dfa_new X E true) p = None).
    { unfold get, get_precedence_start_state. cbn. unfold vget. destruct (p <? 0); [reflexivity|]. destruct (Z.to_nat p); reflexivity. }
    rewrite N. destruct (0 <=? p); [|reflexivity]. destruct (latest hist p); reflexivity.
Qed.
Print Assumptions C31_precedence_map.

(** C31: on any other DFA both operations panic. *)
Theorem C31_other_dfa_panics : forall X E d, is_precedence_dfa d = false ->
  (forall p, get_precedence_start_state X E d p = Panics) /\
  (forall p s, set_precedence_start_state X E d p s = Panics).
Proof. intros X E d H. unfold get_precedence_start_state, set_precedence_start_state. rewrite H. auto. Qed.
Print Assumptions C31_other_dfa_panics.

(** C31 fails on a DFA that was turned into a precedence DFA with
    [set_precedence_dfa(true)]: there is no start state to hold the entries, so
    everything stored is lost. *)
Theorem C31_switched_dfa_refuted : forall X E p s,
  let d := set_precedence_dfa X E (dfa_new X E false) true in
  set_precedence_start_state X E d p s = Val d /\ get_precedence_start_state X E d p = Val None.
Proof. intros X E p s. cbn. unfold set_precedence_start_state. cbn. destruct (p <? 0); auto. Qed.
Print Assumptions C31_switched_dfa_refuted.

Example C31_nonvacuous :
  let hist := [(3, 7); (0, 5); (-2, 6); (3, 8)] in
  (forall p s, In (p, s) hist -> s <> 0) /\ latest hist 3 = Some 8 /\ latest hist 0 = Some 5 /\ latest hist 1 = None.
Proof. cbn. repeat split. intros p s H. intuition; congruence. Qed.

(** C32, parser DFA: after any history of edge stores on a new state, looking up
    a symbol gives the target most recently stored for that very symbol if the
    symbol is EOF or a token type of the grammar, nothing otherwise; out-of-range
    symbols do not disturb anything; no store panics. *)
Theorem C32_parser_edges : forall max hist, -1 <= max -> (forall t s, In (t, s) hist -> s <> 0) ->
  exists es, store_all (p_add_edge max) [] hist = Val es /\
    forall t, p_get_edge es t = if (-1 <=? t) && (t <=? max) then latest hist t else None.
Proof.
  intros max hist Hm NZ.
  destruct (store_all_latest (p_add_edge max) p_get_edge (fun es => es = [] \/ Z.of_nat (length es) = max + 2)
              (fun t => (-1 <=? t) && (t <=? max))) with (hist := hist) (s := @nil Z) as (es & Ee & _ & G).
  - intros es t v L Hv. destruct (p_add_edge_ok max es t v Hm Hv L) as (es' & A & B & C). exists es'.
    split; [exact A|]. split; [exact B|]. intros k'. rewrite C, andb_assoc. reflexivity.
  - left. reflexivity.
  - exact NZ.
  - exists es. split; [exact Ee|]. intros t. rewrite G.
    assert (N : p_get_edge [] t = None) by (unfold p_get_edge, vget; destruct (t + 1 <? 0); [reflexivity|]; destruct (Z.to_nat (t + 1)); reflexivity).
    rewrite N. destruct ((-1 <=? t) && (t <=? max)); [|reflexivity]. destruct (latest hist t); reflexivity.
Qed.
Print Assumptions C32_parser_edges.

(** C32, lexer DFA: the same with the cached range 0..127. *)
Theorem C32_lexer_edges : forall hist, (forall t s, In (t, s) hist -> s <> 0) ->
  exists es, store_all l_add_edge [] hist = Val es /\
    forall t, l_get_edge es t = if (0 <=? t) && (t <=? 127) then latest hist t else None.
Proof.
  intros hist NZ.
  destruct (store_all_latest l_add_edge l_get_edge (fun es => es = [] \/ length es = 128%nat)
              (fun t => (0 <=? t) && (t <=? 127))) with (hist := hist) (s := @nil Z) as (es & Ee & _ & G).
  - intros es t v L Hv. destruct (l_add_edge_ok es t v Hv L) as (es' & A & B & C). exists es'.
    split; [exact A|]. split; [exact B|]. intros k'. rewrite C, andb_assoc. reflexivity.
  - left. reflexivity.
  - exact NZ.
  - exists es. split; [exact Ee|]. intros t. rewrite G.
    assert (N : l_get_edge [] t = None) by (unfold l_get_edge, vget; destruct (t - MIN_DFA_EDGE <? 0); [reflexivity|]; destruct (Z.to_nat (t - MIN_DFA_EDGE)); reflexivity).
    rewrite N. destruct ((0 <=? t) && (t <=? 127)); [|reflexivity]. destruct (latest hist t); reflexivity.
Qed.
Print Assumptions C32_lexer_edges.

Example C32_nonvacuous :
  let hist := [(-1, 4); (3, 5); (9, 6); (3, 7)] in
  (forall t s, In (t, s) hist -> s <> 0) /\
  store_all (p_add_edge 3) [] hist = Val [4; 0; 0; 0; 7] /\ p_get_edge [4; 0; 0; 0; 7] 9 = None.
Proof. cbn. repeat split. intros p s H. intuition; congruence. Qed.

(** C64.  For every DFA obtained from [DFA::new] by any mix of the operations the
    simulator performs, and every submitted state: if some state with an equal
    configuration set was submitted before, its number is returned and nothing
    changes; otherwise a new state with an equal (now read-only) set is appended
    and numbered by its position.  [dhash] is any hash that respects equality,
    so collisions are covered; [share] is the shared context cache (C24). *)
Theorem C64_dedup : forall X E x_eqb dhash share max d l st,
  (forall x y : X, x_eqb x y = true <-> x = y) ->
  (forall a b, map lexer_key a = map lexer_key b -> dhash a = dhash b) ->
  (forall x, wf x -> share x = x) ->
  dfa_hist (E := E) x_eqb dhash share max d l ->
  Forall good_config (configs (d_configs st)) -> d_number st <> ERROR_DFA_STATE_REF ->
  exists d' r, p_add_dfastate X x_eqb E dhash share d st = Val (d', r) /\ 0 < r /\
    (((exists cs, In (r, cs) l /\ same_set cs (d_configs st)) /\ d' = d) \/
     ((forall r' cs, In (r', cs) l -> ~ same_set cs (d_configs st)) /\ r = Z.of_nat (length (dfa_states d)) /\
      exists new, dfa_states d' = dfa_states d ++ [new] /\ d_number new = r /\
        same_set (d_configs new) (d_configs st) /\ read_only (d_configs new) = true /\
        d_edges new = d_edges st /\ d_accept new = d_accept st /\ d_prediction new = d_prediction st /\
        d_full new = d_full st /\ d_preds new = d_preds st)).
Proof.
  intros X E x_eqb dhash share max d l st Hx Hh Hs Hi G N.
  pose proof (hist_ok X E x_eqb dhash share max Hx Hh Hs d l Hi) as V.
  destruct (add_state_ok X E x_eqb dhash share Hx Hh Hs d l st V G N) as (d' & r & A & B & C).
  exists d', r. split; [exact A|]. split; [exact B|].
  destruct C as [C | (C1 & C2 & new & D)]; [left; exact C|]. right. split; [exact C1|]. split; [exact C2|].
  exists new. intuition.
Qed.
Print Assumptions C64_dedup.

(** C64: every number handed out keeps denoting the same state: at any later time
    the state at that position has that number and an equal configuration set, and
    no operation changes anything of it but its edges. *)
Theorem C64_states_stable : forall X E x_eqb dhash share max d l,
  (forall x y : X, x_eqb x y = true <-> x = y) ->
  (forall a b, map lexer_key a = map lexer_key b -> dhash a = dhash b) ->
  (forall x, wf x -> share x = x) ->
  dfa_hist (E := E) x_eqb dhash share max d l ->
  (forall r cs, In (r, cs) l -> exists st, vget (dfa_states d) r = Some st /\ d_number st = r /\ same_set (d_configs st) cs) /\
  (forall o d' r cs st, dfa_step x_eqb dhash share max d o d' -> In (r, cs) l -> vget (dfa_states d) r = Some st ->
     exists st', vget (dfa_states d') r = Some st' /\ frozen st' = frozen st).
Proof.
  intros X E x_eqb dhash share max d l Hx Hh Hs Hi.
  pose proof (hist_ok X E x_eqb dhash share max Hx Hh Hs d l Hi) as V. split.
  - intros r cs I0. destruct (v_sub _ _ _ _ _ V _ _ I0) as (_ & _ & (st & A1 & _ & A3 & A4 & _) & _). exists st. auto.
  - intros o d' r cs st St I0 V1. destruct (step_ok X E x_eqb dhash share max Hx Hh Hs d l o d' V St) as (_ & K & _).
    destruct (v_sub _ _ _ _ _ V _ _ I0) as (_ & B & _). exact (K r st B V1).
Qed.
Print Assumptions C64_states_stable.

Definition c64_set (a : Z) : config_set unit :=
  ConfigSet unit [] [Config 4 a (Some EMPTY) NONE 0 false tt] [] false false false false 0 LocalKey.
Definition c64_add := p_add_dfastate unit (fun _ _ => true) unit (fun _ => 5) (fun x => x).
(** Colliding hashes (always 5): the third submission finds the first state. *)
Example C64_nonvacuous :
  match c64_add (dfa_new unit unit true) (new_dfastate unit unit 0 (c64_set 1)) with
  | Val (d1, 2) =>
      match c64_add d1 (new_dfastate unit unit 0 (c64_set 2)) with
      | Val (d2, 3) => c64_add d2 (new_dfastate unit unit 0 (c64_set 1)) = Val (d2, 2) /\
                       states_map d2 = [(5, [2; 3])] /\
                       exists l, dfa_hist (fun _ _ => true) (fun _ => 5) (fun x => x) 10 d2 l /\ length l = 2%nat
      | _ => False
      end
  | _ => False
  end.
Proof.
  cbn. split; [reflexivity|]. split; [reflexivity|].
  assert (G : forall a, Forall good_config (configs (d_configs (new_dfastate unit unit 0 (c64_set a))))).
  { intros a. constructor; [|constructor]. exists EMPTY. split; [reflexivity | apply wf_EMPTY]. }
  exists [(3, c64_set 2); (2, c64_set 1)]. split; [|reflexivity].
  apply (Hi_step (E := unit) _ _ _ _ (match c64_add (dfa_new unit unit true) (new_dfastate unit unit 0 (c64_set 1)) with Val (d, _) => d | _ => dfa_new unit unit true end) [(2, c64_set 1)] _ [(3, c64_set 2)]).
  - apply (Hi_step (E := unit) _ _ _ _ (dfa_new unit unit true) [] _ [(2, c64_set 1)]); [apply (Hi_new _ _ _ _ true)|].
    eapply St_add with (st := new_dfastate unit unit 0 (c64_set 1)); [apply G | discriminate | reflexivity].
  - eapply St_add with (st := new_dfastate unit unit 0 (c64_set 2)); [apply G | discriminate | reflexivity].
Qed.
