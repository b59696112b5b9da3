(** C26-C27: configuration sets and conflict analysis. *)
From Coq Require Import ZArith List Bool Lia Sorted Permutation.
From Verif Require Import Outcome PredContextModel PredContextSpec PredContextProofs.
From Verif Require Import SemContextModel SemContextProofs ConfigSetModel ConfigSetSpec ConfigSetProofs.
Import ListNotations.
Local Open Scope Z_scope.

(** C26.  Adding any sequence of configurations (with well-formed stacks) to a
    fresh parser set, through no merge cache or any cache of the same root mode:
    one entry per (state, alternative, predicate), in the order of first
    insertion, each standing for exactly the added configurations with its key;
    the summary flags say whether some predicate / some outer-context dip was
    added.  ([stands (negb full)]: in full-context mode the stacks are exact; in
    the other mode the empty marker stands for any continuation.)  The only
    panic is the hash assertion of [merge] (C23). *)
Theorem C26_entries : forall X (x_eqb : X -> X -> bool) hash full cs k,
  Forall good_config cs -> reach_cache hash (negb full) k ->
  (exists s k', add_all X x_eqb hash (new_base_config_set X full) cs k = Val (s, k') /\
     first_occ (map parser_key cs) (map parser_key (configs s)) /\
     NoDup (map parser_key (configs s)) /\
     (forall e, In e (configs s) -> entry_for (negb full) (fun c => parser_key c = parser_key e) cs e) /\
     (has_semantic_context s = true <-> exists c, In c cs /\ c_sem c <> NONE) /\
     (dips_into_outer_context s = true <-> exists c, In c cs /\ c_reach c > 0)) \/
  (add_all X x_eqb hash (new_base_config_set X full) cs k = Panics /\ exists x, wf x /\ hash x = 0).
Proof.
  intros X x_eqb hash full cs k G Ck.
  pose proof (add_all_ok X x_eqb hash _ parser_key LocalKey (fun a b _ _ => parser_key_ok X x_eqb a b)) as A.
  specialize (A (fun e c ea cb m wild k k' _ _ _ _ _ _ => eq_refl)).
  specialize (A full cs [] (new_base_config_set X full) k (Forall_nil _) G).
  specialize (A (inv_empty X _ parser_key LocalKey full) (reach_cache_ok _ _ _ Ck)).
  cbn [app] in A. destruct (add_all X x_eqb hash _ cs k) as [[s k']| |]; [|right; auto|destruct A].
  left. destruct A as ([_ FO En _ Se Di _] & _). exists s, k'.
  split; [reflexivity|]. split; [exact FO|]. split; [apply (first_occ_nodup _ _ FO)|]. auto.
Qed.
Print Assumptions C26_entries.

(** C26 for lexer sets (ordered sets with full keys): adding any sequence keeps
    exactly the first of each group of configurations that agree in everything
    but the outer-context depth; nothing is merged and nothing can panic. *)
Theorem C26_lexer_entries : forall X (x_eqb : X -> X -> bool) hash cs k,
  (forall x y, x_eqb x y = true <-> x = y) -> Forall good_config cs ->
  exists s, add_all X x_eqb hash (new_ordered X) cs k = Val (s, k) /\
    first_occ (map lexer_key cs) (map lexer_key (configs s)).
Proof.
  intros X x_eqb hash cs k Hx G.
  set (P := fun l s => lk_ok X _ lexer_key (config_lookup s) (configs s) /\ Forall good_config (configs s) /\
              first_occ (map (lexer_key (X:=X)) l) (map lexer_key (configs s)) /\
              read_only s = false /\ set_hasher s = FullKey).
  assert (Step : forall l s c, P l s -> good_config c -> exists s',
            add_cached X x_eqb hash s c k = Val (s', k) /\ P (l ++ [c]) s').
  { intros l s c ((L1 & L2) & Gs & FO & R & H) Gc. unfold add_cached. rewrite R, H.
    destruct (lookup X x_eqb FullKey (config_lookup s) c) as [i|] eqn:LK.
    - apply lookup_some in LK. destruct LK as (c' & Hin & KE). destruct (L1 _ _ Hin) as (Gc' & e & Ne & Ke).
      apply lexer_key_ok in KE; auto. rewrite Ne. cbn [unwrap obindo].
      pose proof (nth_error_In _ _ Ne) as He. rewrite Forall_forall in Gs. destruct (Gs e He) as (ea & Cea & Wea).
      assert (EK : lexer_key e = lexer_key c) by congruence.
      assert (Ccb : c_ctx c = Some ea) by (inversion EK; congruence).
      rewrite Cea, Ccb. cbn [unwrap obindo]. cbn [merge]. rewrite pctx_eqb_refl. cbn [obindo].
      eexists. split; [reflexivity|].
      assert (KU : lexer_key (upd X e c ea) = lexer_key e).
      { unfold lexer_key, upd. cbn. inversion EK as [[Q1 Q2 Q3 Q4 Q5 Q6]]. rewrite Cea, Q5. now destruct (c_pfs c). }
      fold (upd X e c ea).
      destruct (set_nth_app _ _ (upd X e c ea) _ Ne) as (l1 & l2 & El & Es & Ll).
      assert (KM : map lexer_key (set_nth i (upd X e c ea) (configs s)) = map lexer_key (configs s)).
      { rewrite Es, El, !map_app. cbn [map]. rewrite KU. reflexivity. }
      unfold P. cbn [config_lookup configs read_only set_hasher]. split; [|split; [|split; [|auto]]].
      + split.
        * intros c0 j H0. destruct (L1 _ _ H0) as (G0 & e0 & N0 & K0). split; [exact G0|].
          rewrite nth_set_nth. destruct (Nat.eqb i j) eqn:Eij; [|exists e0; auto].
          apply Nat.eqb_eq in Eij. subst j. exists (upd X e c ea).
          assert (Hlt : (i < length (configs s))%nat) by (apply nth_error_Some; congruence).
          apply Nat.ltb_lt in Hlt. rewrite Hlt. split; [reflexivity|]. rewrite KU. congruence.
        * intros e0 H0. rewrite Es, in_app_iff in H0.
          assert (D : In e0 (configs s) \/ e0 = upd X e c ea).
          { rewrite El, in_app_iff. cbn in *. intuition. }
          destruct D as [D | ->]; [apply L2; exact D|].
          destruct (L2 e He) as (c1 & j1 & I1 & K1). exists c1, j1. split; [exact I1 | congruence].
      + apply Forall_forall. intros e0 H0. rewrite Es, in_app_iff in H0.
        assert (D : In e0 (configs s) \/ e0 = upd X e c ea).
        { rewrite El, in_app_iff. cbn in *. intuition. }
        destruct D as [D | ->]; [auto | exists ea; auto].
      + rewrite KM, map_app. apply FO_seen; [exact FO|]. rewrite <- (first_occ_in _ _ FO), <- EK. apply in_map, He.
    - pose proof (lookup_none _ _ _ _ _ LK) as LN. eexists. split; [reflexivity|].
      assert (NK : ~ In (lexer_key c) (map lexer_key (configs s))).
      { intros Q. apply in_map_iff in Q. destruct Q as (e & Ke & He). destruct (L2 e He) as (c1 & j & I1 & K1).
        pose proof (LN _ _ I1) as F. destruct (L1 _ _ I1) as (G1 & _).
        assert (T : key_eqb X x_eqb FullKey c1 c = true) by (apply lexer_key_ok; auto; congruence). congruence. }
      unfold P. cbn [config_lookup configs read_only set_hasher]. split; [|split; [|split; [|auto]]].
      + split.
        * intros c0 j [Q | Hin].
          -- inversion Q; subst. split; [exact Gc|]. exists c0. rewrite nth_error_app2 by lia. rewrite Nat.sub_diag. auto.
          -- destruct (L1 _ _ Hin) as (G0 & e & N0 & K0). split; [exact G0|]. exists e.
             rewrite nth_error_app1; [auto|]. apply nth_error_Some. congruence.
        * intros e He. rewrite in_app_iff in He. destruct He as [He | [<- | []]].
          -- destruct (L2 e He) as (c1 & j & I1 & K1). exists c1, j. split; [right; exact I1 | exact K1].
          -- exists c, (length (configs s)). split; [left; reflexivity | reflexivity].
      + apply Forall_app. auto.
      + rewrite !map_app. apply FO_new; [exact FO|]. rewrite <- (first_occ_in _ _ FO). exact NK. }
  assert (Run : forall l0 l s, P l s -> Forall good_config l0 -> exists s', add_all X x_eqb hash s l0 k = Val (s', k) /\ P (l ++ l0) s').
  { induction l0 as [|c l0 IH]; intros l s Ps Gl; cbn [add_all].
    - exists s. rewrite app_nil_r. auto.
    - inversion Gl as [|? ? Gc Gl']; subst. destruct (Step l s c Ps Gc) as (s' & -> & Ps'). cbn [obindo].
      destruct (IH (l ++ [c]) s' Ps' Gl') as (s2 & E & P2). exists s2. rewrite <- app_assoc in P2. auto. }
  destruct (Run cs [] (new_ordered X)) as (s & E & Ps); [|exact G|].
  - unfold P, new_ordered, lk_ok. cbn [config_lookup configs read_only set_hasher map].
    split; [split; [intros c i [] | intros e []]|]. split; [constructor|]. split; [constructor | auto].
  - exists s. split; [exact E|]. apply Ps.
Qed.
Print Assumptions C26_lexer_entries.

(** C26: a read-only set refuses additions. *)
Theorem C26_read_only_panics : forall X (x_eqb : X -> X -> bool) hash s c k,
  add_cached X x_eqb hash (set_read_only X s true) c k = Panics.
Proof. reflexivity. Qed.
Print Assumptions C26_read_only_panics.

Definition c26_ex : list (config unit) :=
  [ Config 4 1 (Some EMPTY) NONE 0 false tt;
    Config 5 2 (Some (Singleton 9 (Some EMPTY))) NONE 0 false tt;
    Config 4 1 (Some (Singleton 7 (Some EMPTY))) NONE 3 false tt;
    Config 4 2 (Some EMPTY) (Precedence 2) 0 true tt;
    Config 5 2 (Some (Singleton 8 (Some EMPTY))) NONE 0 false tt ].
Example C26_nonvacuous :
  Forall good_config c26_ex /\
  match add_all unit (fun _ _ => true) (fun _ => 1) (new_base_config_set unit true) c26_ex (Some []) with
  | Val (s, _) => map parser_key (configs s) = [(4, 1, NONE); (5, 2, NONE); (4, 2, Precedence 2)] /\
      map c_ctx (configs s) = [Some (Array [7; EMPTY_RETURN_STATE] [Some EMPTY; None]);
                               Some (Array [8; 9] [Some EMPTY; Some EMPTY]); Some EMPTY]
  | _ => False
  end.
Proof.
  split.
  - repeat apply Forall_cons; try apply Forall_nil;
      match goal with |- good_config ?c => exists (match c_ctx c with Some x => x | None => EMPTY end) end;
      (split; [reflexivity|]); cbn [c_ctx];
      first [apply wf_EMPTY | apply wf_single_some; split; [reflexivity | apply wf_EMPTY]].
  - vm_compute. split; reflexivity.
Qed.

(** ** C27 *)

(** C27: the conflicting-alternative subsets are, for any hash-map order, one
    ascending duplicate-free set per (state, stacks) group: exactly the group's
    alternatives. *)
Theorem C27_subsets : forall X order cs, (forall l, Permutation (order l) l) -> Forall good_config cs ->
  exists gs ss, get_conflicting_alt_subsets X order cs = Val ss /\
    NoDup gs /\ (forall g, In g gs <-> group cs g) /\
    Forall2 (fun g s => is_set s (alt_of cs g)) gs ss.
Proof. intros X order cs Ho G. apply subsets_ok; auto. Qed.
Print Assumptions C27_subsets.

(** C27: what each analysis of those subsets means for the configurations. *)
Theorem C27_analyses : forall X order cs, (forall l, Permutation (order l) l) -> Forall good_config cs ->
  exists ss, get_conflicting_alt_subsets X order cs = Val ss /\
    (all_subsets_conflict ss = true <-> forall g, group cs g -> ambiguous (alt_of cs g)) /\
    (has_conflicting_alt_set ss = true <-> exists g, ambiguous (alt_of cs g)) /\
    (all_subsets_equal ss = true <-> forall g g', group cs g -> group cs g' -> forall a, alt_of cs g a <-> alt_of cs g' a) /\
    is_set (get_alts ss) (fun a => exists c, In c cs /\ c_alt c = a) /\
    get_conflicting_alts X order cs = Val (get_alts ss).
Proof.
  intros X order cs Ho G. destruct (subsets_ok X order Ho cs G) as (gs & ss & E & ND & Gr & F).
  exists ss. split; [exact E|].
  assert (NE : forall g, In g gs -> exists a, alt_of cs g a) by (intros g Hg; apply Gr in Hg; exact Hg).
  split; [|split; [|split; [|split]]].
  - rewrite (all_conflict_ok _ _ _ _ F NE). split; intros H g Hg; apply H, Gr, Hg.
  - rewrite (conflict_set_ok _ _ _ _ F). split.
    + intros (g & _ & A). exists g. exact A.
    + intros (g & A). exists g. split; [|exact A]. destruct A as (a & b & Pa & _). apply Gr. exists a. exact Pa.
  - rewrite (all_equal_ok _ _ _ _ F). split; intros H g g' Hg Hg'; apply H; apply Gr; auto.
  - eapply is_set_ext; [|apply (get_alts_ok _ _ _ _ F)]. intros a. split.
    + intros (g & _ & c & I0 & _ & _ & A). exists c. auto.
    + intros (c & I0 & A). rewrite Forall_forall in G. destruct (G c I0) as (x & Cx & _).
      assert (H : alt_of cs (c_state c, x) a) by (exists c; auto).
      exists (c_state c, x). split; [apply Gr; exists a; exact H | exact H].
  - unfold get_conflicting_alts. rewrite E. reflexivity.
Qed.
Print Assumptions C27_analyses.

(** C27: the single viable alternative is the common least alternative of all
    groups; the invalid alternative (0) exactly when there is none. *)
Theorem C27_single_viable : forall X order cs, (forall l, Permutation (order l) l) -> Forall good_config cs ->
  (forall c, In c cs -> c_alt c <> INVALID_ALT) ->
  exists ss v, get_conflicting_alt_subsets X order cs = Val ss /\ get_single_viable_alt ss = Val v /\
    (v <> INVALID_ALT -> cs <> [] /\ forall g, group cs g -> least (alt_of cs g) v) /\
    (v = INVALID_ALT -> cs = [] \/ exists g g' a b, least (alt_of cs g) a /\ least (alt_of cs g') b /\ a <> b).
Proof.
  intros X order cs Ho G NZ. destruct (subsets_ok X order Ho cs G) as (gs & ss & E & ND & Gr & F).
  destruct (single_viable_ok _ _ _ _ F) as (v & Ev & A & B).
  - intros g Hg. apply Gr in Hg. exact Hg.
  - intros g a _ (c & I0 & _ & _ & <-). auto.
  - exists ss, v. split; [exact E|]. split; [exact Ev|]. split.
    + intros Nv. destruct (A Nv) as (Ng & L). split.
      * intros ->. apply Ng. destruct gs as [|g gs]; [reflexivity|].
        destruct (proj1 (Gr g) (or_introl eq_refl)) as (a & c & [] & _).
      * intros g Hg. apply L, Gr, Hg.
    + intros Ev0. destruct (B Ev0) as [-> | (g & g' & a & b & I1 & I2 & L1 & L2 & N)].
      * left. destruct cs as [|c cs]; [reflexivity|]. rewrite Forall_forall in G.
        destruct (G c (or_introl eq_refl)) as (x & Cx & _).
        exfalso. apply (proj2 (Gr (c_state c, x))). exists (c_alt c), c. cbn. auto.
      * right. exists g, g', a, b. auto.
Qed.
Print Assumptions C27_single_viable.

(** C27: some state reached by exactly one alternative. *)
Theorem C27_state_with_one_alt : forall X (cs : list (config X)),
  has_state_associated_with_one_alt X cs = true <-> some_state_decided cs.
Proof. exact state_one_ok. Qed.
Print Assumptions C27_state_with_one_alt.

(** C27: the unique alternative: the alternative of all configurations if they
    agree, else the invalid one. *)
Theorem C27_unique_alt : forall X (cs : list (config X)), (forall c, In c cs -> c_alt c <> INVALID_ALT) ->
  (get_unique_alt X cs <> INVALID_ALT -> cs <> [] /\ forall c, In c cs -> c_alt c = get_unique_alt X cs) /\
  (get_unique_alt X cs = INVALID_ALT -> cs = [] \/ exists c c', In c cs /\ In c' cs /\ c_alt c <> c_alt c').
Proof. exact unique_alt_ok. Qed.
Print Assumptions C27_unique_alt.

(** C27: all alternatives of a set. *)
Theorem C27_set_alts : forall X (cs : list (config X)),
  is_set (set_get_alts X cs) (fun a => exists c, In c cs /\ c_alt c = a).
Proof.
  intros X cs. unfold set_get_alts.
  assert (A : forall l acc P, is_set acc P ->
     is_set (fold_left (fun acc (c : config X) => bs_insert (c_alt c) acc) l acc) (fun a => P a \/ exists c, In c l /\ c_alt c = a)).
  { induction l as [|c l IH]; intros acc P H; cbn [fold_left].
    - eapply is_set_ext; [|exact H]. intros a. split; [auto | intros [|(c & [] & _)]; auto].
    - eapply is_set_ext; [|apply IH, is_set_insert, H]. intros a. cbn. split.
      + intros [[-> | H1] | (c0 & I0 & E)]; [right; exists c; auto | auto | right; exists c0; auto].
      + intros [H1 | (c0 & [<- | I0] & E)]; [auto | auto | right; exists c0; auto]. }
  eapply is_set_ext; [|apply A, is_set_nil]. intros a. tauto.
Qed.
Print Assumptions C27_set_alts.

(** C27: the SLL stopping test.  It holds iff some (state, stacks) group is
    ambiguous and no state is decided, for the set itself; in SLL mode on a set
    with predicates, for the predicate-free copy of the set, whose entries are
    those of C26 for the stripped configurations (merged with exact stacks). *)
Theorem C27_sll_termination : forall X (x_eqb : X -> X -> bool) hash order x0 mode s,
  (forall l, Permutation (order l) l) -> (forall x, wf x -> hash x <> 0) -> Forall good_config (configs s) ->
  exists cs b, has_sll_conflict_terminating_prediction X x_eqb hash order x0 mode s = Val b /\
    (b = true <-> (exists g, ambiguous (alt_of cs g)) /\ ~ some_state_decided cs) /\
    (mode <> SLL \/ has_semantic_context s = false -> cs = configs s) /\
    (mode = SLL /\ has_semantic_context s = true ->
      first_occ (map (fun c => (c_state c, c_alt c)) (configs s)) (map (fun c => (c_state c, c_alt c)) cs) /\
      forall e, In e cs -> c_sem e = NONE /\ exists x, c_ctx e = Some x /\ wf x /\
        forall st, stands false x st <->
          exists c y, In c (configs s) /\ c_state c = c_state e /\ c_alt c = c_alt e /\ c_ctx c = Some y /\ stands false y st).
Proof.
  intros X x_eqb hash order x0 mode s Ho Hh G.
  assert (Fin : forall cs, Forall good_config cs -> exists b,
     (let! altsets := get_conflicting_alt_subsets X order cs in
      Val (has_conflicting_alt_set altsets && negb (has_state_associated_with_one_alt X cs)))%outcome = Val b /\
     (b = true <-> (exists g, ambiguous (alt_of cs g)) /\ ~ some_state_decided cs)).
  { intros cs Gcs. destruct (C27_analyses X order cs Ho Gcs) as (ss & -> & _ & C & _). cbn [obindo].
    eexists. split; [reflexivity|]. rewrite andb_true_iff, C, negb_true_iff. split; intros (A & B); (split; [exact A|]).
    - intros Q. apply state_one_ok in Q. congruence.
    - destruct (has_state_associated_with_one_alt X cs) eqn:Q; [|reflexivity]. apply state_one_ok in Q. contradiction. }
  unfold has_sll_conflict_terminating_prediction.
  destruct mode; [|cbn [obindo]; destruct (Fin _ G) as (b & E & H); exists (configs s), b; split; [exact E|]; split; [exact H|]; split; [auto | intros (Q & _); discriminate] ..].
  destruct (has_semantic_context s) eqn:HS.
  - assert (G' : Forall good_config (map (strip_sem X x0) (configs s))).
    { rewrite Forall_map. eapply Forall_impl; [|exact G]. intros c Hc. exact Hc. }
    destruct (C26_entries X x_eqb hash true (map (strip_sem X x0) (configs s)) None G' (RC_none _ _))
      as [(d & k' & E & FO & ND & En & _ & _) | (_ & x & Wx & Hx)]; [|exfalso; eapply Hh; eauto].
    rewrite E. cbn [obindo]. assert (Gd : Forall good_config (configs d)).
    { apply Forall_forall. intros e He. destruct (En e He) as ((x & A & B & _) & _). exists x. auto. }
    destruct (Fin _ Gd) as (b & Eb & H). exists (configs d), b. split; [exact Eb|]. split; [exact H|].
    split; [intros [Q|Q]; congruence|]. intros _.
    assert (KN : forall e, In e (configs d) -> c_sem e = NONE).
    { intros e He. assert (Q : In (parser_key e) (map parser_key (map (strip_sem X x0) (configs s)))).
      { rewrite <- (first_occ_in _ _ FO). apply in_map, He. }
      apply in_map_iff in Q. destruct Q as (c & K1 & I1). apply in_map_iff in I1. destruct I1 as (c1 & <- & _).
      unfold parser_key in K1. cbn in K1. congruence. }
    split.
    + assert (T : forall (l : list (Z * Z * sem)) f, first_occ l f -> (forall t, In t l -> snd t = NONE) ->
                first_occ (map fst l) (map fst f)).
      { induction 1 as [| l f t H1 IH Ht | l f t H1 IH Ht]; intros Al.
        - constructor.
        - rewrite map_app. apply FO_seen; [apply IH; intros; apply Al; rewrite in_app_iff; auto | apply in_map, Ht].
        - rewrite !map_app. apply FO_new; [apply IH; intros; apply Al; rewrite in_app_iff; auto|].
          intros Q. apply in_map_iff in Q. destruct Q as (t' & E' & I'). apply Ht.
          assert (snd t' = snd t).
          { rewrite (Al t'), (Al t); [reflexivity | | ]; rewrite in_app_iff; cbn; auto. }
          destruct t, t'. cbn in *. congruence. }
      apply T in FO; [|intros t Q; apply in_map_iff in Q; destruct Q as (c & <- & I1); apply in_map_iff in I1; destruct I1 as (c1 & <- & _); reflexivity].
      rewrite !map_map in FO. exact FO.
    + intros e He. split; [apply KN, He|]. destruct (En e He) as ((x & A & B & St) & _). exists x.
      split; [exact A|]. split; [exact B|]. intros st. rewrite St. split.
      * intros (c & y & I0 & K0 & Cy & Sy). apply in_map_iff in I0. destruct I0 as (c1 & <- & I1).
        unfold parser_key in K0. cbn in K0, Cy. exists c1, y. inversion K0. auto.
      * intros (c & y & I0 & S0 & A0 & Cy & Sy). exists (strip_sem X x0 c), y. split; [apply in_map, I0|].
        split; [|auto]. unfold parser_key. cbn. rewrite (KN e He), S0, A0. reflexivity.
  - cbn [obindo]. destruct (Fin _ G) as (b & E & H). exists (configs s), b. split; [exact E|]. split; [exact H|]. split; [auto | intros (_ & Q); discriminate].
Qed.
Print Assumptions C27_sll_termination.

(** C27: the alternatives reported for a set: its unique alternative if it has
    one, else the recorded conflicting alternatives. *)
Theorem C27_conflicting_or_unique : forall X (s : config_set X),
  (unique_alt s <> INVALID_ALT -> get_conflicting_alts_or_unique_alt X s = [unique_alt s]) /\
  (unique_alt s = INVALID_ALT -> get_conflicting_alts_or_unique_alt X s = conflicting_alts s).
Proof.
  intros X s. unfold get_conflicting_alts_or_unique_alt. destruct (Z.eqb_spec (unique_alt s) INVALID_ALT); cbn; tauto.
Qed.
Print Assumptions C27_conflicting_or_unique.

Example C27_nonvacuous :
  let cs := [ Config 4 1 (Some EMPTY) NONE 0 false tt; Config 4 3 (Some EMPTY) NONE 0 false tt;
              Config 5 1 (Some EMPTY) NONE 0 false tt; Config 5 2 (Some EMPTY) NONE 0 false tt ] in
  get_conflicting_alt_subsets unit (fun l => rev l) cs = Val [[1; 2]; [1; 3]] /\
  get_single_viable_alt [[1; 2]; [1; 3]] = Val 1 /\ get_unique_alt unit cs = 0 /\
  has_state_associated_with_one_alt unit cs = false /\ ambiguous (alt_of cs (4, EMPTY)).
Proof.
  vm_compute. repeat split. exists 1, 3. repeat split; try discriminate.
  - eexists. split; [left; reflexivity|]. repeat split.
  - eexists. split; [right; left; reflexivity|]. repeat split.
Qed.
