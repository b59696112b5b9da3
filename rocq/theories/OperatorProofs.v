(** The loop of an operator rule: what the start state of its prediction holds. *)
From Coq Require Import ZArith List Bool Lia.
From Verif Require Import Outcome IntervalSetModel PredContextModel PredContextSpec PredContextProofs SemContextModel SemContextProofs.
From Verif Require Import ConfigSetModel ConfigSetSpec ConfigSetProofs DfaModel DfaProofs AtnModel AtnSpec AtnProofs Ll1Model Ll1Spec ParserModel PredictModel.
From Verif Require Import PredictFrameProofs PredictLLSpec PredictLLSetProofs RecSpec OperatorSpec.
Import ListNotations.
Local Open Scope Z_scope.
Local Open Scope outcome_scope.

(** ** Contexts made of states outside *)
Section Deep.
  Variable Out : Z -> Prop.
  Inductive deep : pctx -> Prop :=
  | Deep : forall c, (forall r q, In (r, Some q) (entries c) -> Out r /\ deep q) -> (forall r, In (r, None) (entries c) -> r = EMPTY_RETURN_STATE) -> deep c.
  Definition deepl (l : list (Z * option pctx)) : Prop :=
    (forall r q, In (r, Some q) l -> Out r /\ deep q) /\ (forall r, In (r, None) l -> r = EMPTY_RETURN_STATE).
  Lemma deep_iff c : deep c <-> deepl (entries c).
  Proof. split; [intros H; inversion H; subst; split; auto | intros (A & B); constructor; auto]. Qed.
  Lemma deepl_app l l' : deepl l -> deepl l' -> deepl (l ++ l').
  Proof. intros (A & B) (A' & B'). split; [intros r q I | intros r I]; apply in_app_iff in I as [I|I]; auto. Qed.
  Lemma deepl_cons x l : deepl [x] -> deepl l -> deepl (x :: l).
  Proof. intros A B. exact (deepl_app [x] l A B). Qed.
  Lemma deepl_head x l : deepl (x :: l) -> deepl [x] /\ deepl l.
  Proof. intros (A & B). split; split; [intros r q [I|[]] | intros r [I|[]] | intros r q I | intros r I]; try (apply A; left; exact I); try (apply B; left; exact I); try (apply A; right; exact I); apply B; right; exact I. Qed.
  Lemma deepl_nil : deepl [].
  Proof. split; intros; contradiction. Qed.
  Lemma deep_EMPTY : deep EMPTY.
  Proof. apply deep_iff. split; [intros r q [I|[]]; discriminate | intros r [I|[]]; injection I as <-; reflexivity]. Qed.
  Lemma deep_push f c : Out f -> deep c -> deep (Singleton f (Some c)).
  Proof. intros A B. apply deep_iff. split; [intros r q [I|[]]; injection I as <- <-; auto | intros r [I|[]]; discriminate]. Qed.

  Variable hash : pctx -> Z.
  Definition kdeep (k : option cache) : Prop := forall c x y r, k = Some c -> In ((x, y), r) c -> deep r.
  Lemma kdeep_get k c x y r : kdeep k -> k = Some c -> cache_get c x y = Some r -> deep r.
  Proof.
    intros K -> H. induction c as [|[[x' y'] r'] c IH]; [discriminate|]. cbn in H. destruct (pctx_eqb x' x && pctx_eqb y' y).
    - injection H as <-. eapply K; [reflexivity | left; reflexivity].
    - apply IH; [|exact H]. intros c0 x0 y0 r0 E I. injection E as <-. eapply K; [reflexivity | right; exact I].
  Qed.
  Definition rdeep (rec : rec_merge) : Prop := forall x y k r k', deep x -> deep y -> kdeep k -> rec x y k = Val (r, k') -> deep r /\ kdeep k'.

  Lemma append_rest_val rs : forall ps x y, append_rest rs ps = Val (x, y) -> length x = length y /\ combine x y = combine rs ps.
  Proof.
    induction rs as [|r rs IH]; intros ps x y H; cbn in H; [injection H as <- <-; auto|].
    destruct ps as [|p ps]; [discriminate|]. bind2 H x1 y1 E. injection H as <- <-. apply IH in E as (A & B). cbn. split; congruence.
  Qed.
  Lemma singletons_deep rec ra pa rb pb k r k' : rdeep rec -> deepl [(ra, pa)] -> deepl [(rb, pb)] -> kdeep k ->
    merge_singletons rec ra pa rb pb true k = Val (r, k') -> deep r /\ kdeep k'.
  Proof.
    intros R A B K H. unfold merge_singletons, merge_root in H.
    destruct (singleton_is_empty ra pa || singleton_is_empty rb pb); [injection H as <- <-; split; [apply deep_EMPTY | exact K]|].
    destruct (ra =? rb).
    - bind H qa Ea. bind H qb Eb. destruct pa as [qa'|]; [|discriminate]. destruct pb as [qb'|]; [|discriminate]. injection Ea as ->. injection Eb as ->.
      bind2 H pr k1 E. injection H as <- <-. destruct (proj1 A ra qa (or_introl eq_refl)) as (Oa & Da). destruct (proj1 B rb qb (or_introl eq_refl)) as (Ob & Db).
      destruct (R _ _ _ _ _ Da Db K E) as (Dp & Kp). split; [apply deep_push; auto | exact Kp].
    - assert (Q : exists p0 p1, (if opt_pctx_eqb pa pb then (pa, pa) else (pa, pb)) = (p0, p1) /\ deepl [(ra, p0)] /\ deepl [(rb, p1)]).
      { destruct (opt_pctx_eqb pa pb) eqn:Eq; [|exists pa, pb; auto]. exists pa, pa. split; [reflexivity|]. split; [exact A|].
        destruct pa as [qa|], pb as [qb|]; try discriminate; [|exact B]. split; [|intros r0 [I|[]]; discriminate].
        intros r0 q0 [I|[]]. injection I as <- <-. split; [apply (proj1 B rb qb); left; reflexivity | apply (proj1 A ra qa); left; reflexivity]. }
      destruct Q as (p0 & p1 & E & D0 & D1). rewrite E in H. destruct (ra <=? rb); injection H as <- <-; (split; [|exact K]); apply deep_iff; cbn [entries combine];
        apply deepl_cons; auto.
  Qed.
  Lemma loop_deep rec : rdeep rec -> forall n ars aps brs bps k rs ps k', deepl (combine ars aps) -> deepl (combine brs bps) -> kdeep k ->
    merge_arrays_loop n rec ars aps brs bps k = Val (rs, ps, k') -> deepl (combine rs ps) /\ kdeep k' /\ length rs = length ps.
  Proof.
    intros R. induction n as [|n IH]; intros ars aps brs bps k rs ps k' A B K H; [discriminate|]. cbn [merge_arrays_loop] in H.
    assert (Rest : (let! (x1, y1) := append_rest ars aps in let! (x2, y2) := append_rest brs bps in Val (x1 ++ x2, y1 ++ y2, k)) = Val (rs, ps, k') -> deepl (combine rs ps) /\ kdeep k' /\ length rs = length ps).
    { intros Q. bind2 Q x1 y1 E1. bind2 Q x2 y2 E2. injection Q as <- <- <-. apply append_rest_val in E1 as (L1 & C1). apply append_rest_val in E2 as (L2 & C2).
      split; [|split; [exact K | rewrite !app_length; lia]]. replace (combine (x1 ++ x2) (y1 ++ y2)) with (combine x1 y1 ++ combine x2 y2); [rewrite C1, C2; apply deepl_app; auto|].
      clear - L1. revert y1 L1. induction x1 as [|x x1 IHx]; intros [|y y1] L1; try discriminate; cbn; [reflexivity|]. f_equal. apply IHx. cbn in L1. lia. }
    destruct aps as [|ap aps]; [apply Rest, H|]. destruct bps as [|bp bps]; [apply Rest, H|]. clear Rest.
    destruct ars as [|ra ars]; [discriminate|]. destruct brs as [|rb brs]; [discriminate|]. cbn [combine] in A, B. pose proof (deepl_head _ _ A) as (A1 & A2). pose proof (deepl_head _ _ B) as (B1 & B2).
    destruct (Z.eqb_spec ra rb) as [<-|Hne].
    - destruct (_ || _) in H.
      + bind3 H rs1 ps1 k1 E. injection H as <- <- <-. destruct (IH _ _ _ _ _ _ _ _ A2 B2 K E) as (D & K1 & Len). split; [cbn [combine]; apply deepl_cons; auto | cbn; auto].
      + bind H qa Ea. bind H qb Eb. destruct ap as [qa'|]; [|discriminate]. destruct bp as [qb'|]; [|discriminate]. injection Ea as ->. injection Eb as ->.
        bind2 H mg k1 E. bind3 H rs1 ps1 k2 E2. injection H as <- <- <-. destruct (proj1 A1 ra qa (or_introl eq_refl)) as (Oa & Da). destruct (proj1 B1 ra qb (or_introl eq_refl)) as (Ob & Db).
        destruct (R _ _ _ _ _ Da Db K E) as (Dm & K1). destruct (IH _ _ _ _ _ _ _ _ A2 B2 K1 E2) as (D & K2 & Len). split; [|cbn; auto]. cbn [combine]. apply deepl_cons; [|exact D].
        split; [intros r q [I|[]]; injection I as <- <-; auto | intros r [I|[]]; discriminate].
    - destruct (ra <? rb).
      + bind3 H rs1 ps1 k1 E. injection H as <- <- <-. destruct (IH _ _ (rb :: brs) (bp :: bps) _ _ _ _ A2 B K E) as (D & K1 & Len). split; [cbn [combine]; apply deepl_cons; auto | cbn; auto].
      + bind3 H rs1 ps1 k1 E. injection H as <- <- <-. destruct (IH (ra :: ars) (ap :: aps) _ _ _ _ _ _ A B2 K E) as (D & K1 & Len). split; [cbn [combine]; apply deepl_cons; auto | cbn; auto].
  Qed.
  Lemma uniq_sub ps : forall u x, In x (fold_left (fun u p => match uniq_get u p with Some _ => u | None => u ++ [p] end) ps u) -> In x u \/ In x ps.
  Proof.
    induction ps as [|p ps IH]; intros u x H; cbn in H; [auto|]. apply IH in H as [H|H]; [|right; right; exact H].
    destruct (uniq_get u p); [left; exact H|]. apply in_app_iff in H as [H|[H|[]]]; [left; exact H | right; left; exact H].
  Qed.
  Lemma map_unwrap_in {A B} (f : A -> outcome B) l : forall l' n y, map_unwrap f l = Val l' -> nth_error l' n = Some y -> exists x, nth_error l n = Some x /\ f x = Val y.
  Proof.
    induction l as [|x l IH]; intros l' n y H N; cbn in H; [injection H as <-; destruct n; discriminate|].
    bind H z E. bind H zs Es. injection H as <-. destruct n as [|n]; cbn in N; [injection N as <-; exists x; auto|]. eapply IH; eauto.
  Qed.
  Lemma common_deep rs ps ps' : combine_common_parents ps = Val ps' -> length rs = length ps -> deepl (combine rs ps) -> deepl (combine rs ps').
  Proof.
    unfold combine_common_parents. intros H L (A & B).
    assert (Q : forall r p', In (r, p') (combine rs ps') -> exists p r', In (r, p) (combine rs ps) /\ opt_pctx_eqb p' p = true /\ In (r', p') (combine rs ps)).
    { intros r p' I. apply In_nth_error in I as (n & N).
      assert (N1 : nth_error rs n = Some r /\ nth_error ps' n = Some p').
      { clear - N. revert ps' n N. induction rs as [|x rs IH]; intros [|y ps'] [|n] N; try discriminate; cbn in *; [injection N as <- <-; auto | apply IH, N]. }
      destruct N1 as (Nr & Np). destruct (map_unwrap_in _ _ _ _ _ H Np) as (p & N2 & E). destruct (uniq_get (uniq_parents ps) p) as [z|] eqn:Eu; [|discriminate]. injection E as ->.
      apply uniq_get_eq in Eu as (Iu & Eq). apply uniq_sub in Iu as [[]|Iu]. apply In_nth_error in Iu as (n' & N').
      destruct (nth_error rs n') as [r'|] eqn:Nr'; [|apply nth_error_None in Nr'; assert (n' < length ps)%nat by (apply nth_error_Some; congruence); lia].
      exists p, r'. split; [eapply nth_error_In, nth_error_combine; eauto|]. split; [exact Eq|]. eapply nth_error_In, nth_error_combine; eauto. }
    split.
    - intros r q I. destruct (Q _ _ I) as (p & r' & I1 & Eq & I2). destruct p as [q0|]; [|discriminate]. split; [apply (A _ _ I1) | apply (A _ _ I2)].
    - intros r I. destruct (Q _ _ I) as (p & r' & I1 & Eq & I2). destruct p as [q0|]; [discriminate|]. apply (B _ I1).
  Qed.
  Lemma arrays_deep rec x y k r k' : rdeep rec -> deep x -> deep y -> kdeep k -> merge_arrays rec (to_array x) (to_array y) k = Val (r, k') -> deep r /\ kdeep k'.
  Proof.
    intros R A B K H. unfold merge_arrays in H. destruct (to_array x) as [ars aps] eqn:Ex. destruct (to_array y) as [brs bps] eqn:Ey.
    apply deep_iff in A, B. assert (Ea : entries x = combine ars aps) by (destruct x; injection Ex as <- <-; reflexivity).
    assert (Eb : entries y = combine brs bps) by (destruct y; injection Ey as <- <-; reflexivity). rewrite Ea in A. rewrite Eb in B.
    bind3 H rs ps k1 E. bind H ps' E2. injection H as <- <-. destruct (loop_deep _ R _ _ _ _ _ _ _ _ _ A B K E) as (D & K1 & Len). split; [|exact K1].
    apply deep_iff. cbn [entries]. eapply common_deep; eauto.
  Qed.
  Lemma merge_deep : forall n, rdeep (merge hash n true).
  Proof.
    induction n as [|n IH]; intros x y k r k' A B K H; [discriminate|]. cbn [merge] in H.
    destruct (pctx_eqb x y); [injection H as <- <-; auto|].
    destruct (match k with None => None | Some c => match cache_get c x y with Some r => Some r | None => cache_get c y x end end) as [r0|] eqn:Eo.
    - injection H as <- <-. split; [|exact K]. destruct k as [c|]; [|discriminate]. destruct (cache_get c x y) as [r1|] eqn:Eg.
      + injection Eo as <-. eapply kdeep_get; eauto.
      + eapply kdeep_get; eauto.
    - assert (Fin : forall o, (forall r1 k1, o = Val (r1, k1) -> deep r1 /\ kdeep k1) ->
        (let! (r, k) := o in if hash r =? 0 then Panics else Val (r, match k with None => None | Some c => Some (((x, y), r) :: c) end)) = Val (r, k') -> deep r /\ kdeep k').
      { intros o Ho Q. bind2 Q r1 k1 E. destruct (hash r1 =? 0); [discriminate|]. injection Q as <- <-. destruct (Ho _ _ E) as (D & K1). split; [exact D|].
        destruct k1 as [c|]; intros c0 x0 y0 r0 Ec I; [|discriminate]. injection Ec as <-. destruct I as [I|I]; [injection I as <- <- <-; exact D | eapply K1; eauto]. }
      assert (Arr : (if true then let! ea := pc_is_empty x in if ea : bool then Val (EMPTY, k) else let! eb := pc_is_empty y in if eb : bool then Val (EMPTY, k)
                       else let! (r, k) := merge_arrays (merge hash n true) (to_array x) (to_array y) k in if hash r =? 0 then Panics else Val (r, match k with None => None | Some c => Some (((x, y), r) :: c) end)
                     else Panics) = Val (r, k') -> deep r /\ kdeep k').
      { intros Q. bind Q ea E1. destruct ea; [injection Q as <- <-; split; [apply deep_EMPTY | exact K]|]. bind Q eb E2. destruct eb; [injection Q as <- <-; split; [apply deep_EMPTY | exact K]|].
        eapply Fin; [|exact Q]. intros r1 k1 E. exact (arrays_deep _ _ _ _ _ _ IH A B K E). }
      destruct x as [ra pa|ars aps], y as [rb pb|brs bps]; try (apply Arr, H). eapply Fin; [|exact H]. intros r1 k1 E.
      eapply singletons_deep; [exact IH | apply deep_iff in A; exact A | apply deep_iff in B; exact B | exact K | exact E].
  Qed.
End Deep.

(** ** Adding a configuration: a property that merging keeps is kept *)
Lemma add_gen (P : pconfig -> Prop) (K : option cache -> Prop) hash (s : pset) c k s' k' :
  add_cached unit unit_eqb hash s c k = Val (s', k') -> set_hasher s = LocalKey -> full_ctx s = false -> lookup_good (config_lookup s) (configs s) ->
  Forall P (configs s) -> P c -> K k ->
  (forall e ea cb mg n, P e -> c_state e = c_state c -> c_alt e = c_alt c -> c_ctx e = Some ea -> c_ctx c = Some cb -> merge hash n true ea cb k = Val (mg, k') ->
     P (upd unit e c mg) /\ K k') ->
  set_hasher s' = LocalKey /\ full_ctx s' = false /\ lookup_good (config_lookup s') (configs s') /\ Forall P (configs s') /\ K k' /\
  (forall q j, has_key (configs s') q j <-> has_key (configs s) q j \/ has_key [c] q j) /\
  has_semantic_context s' = (if sem_eqb (c_sem c) NONE then has_semantic_context s else true) /\ unique_alt s' = unique_alt s.
Proof.
  intros E Hh Hf Hl Hc Pc Kk M. unfold add_cached in E. destruct (ConfigSetModel.read_only s); [discriminate|]. rewrite Hh in E.
  destruct (lookup unit unit_eqb LocalKey (config_lookup s) c) as [i|] eqn:EL.
  - apply lookup_some in EL as (c0 & I0 & K0). destruct (Hl _ _ I0) as (e & Ne & Se & Ae).
    change (nth_error (configs (X := unit) s) i = Some e) in Ne. unfold pconfig in Ne. rewrite Ne in E. cbn [unwrap obindo] in E. pose proof (nth_error_In _ _ Ne) as Ie.
    pose proof (proj1 (Forall_forall _ _) Hc _ Ie) as Pe. bind E ea Ea. bind E cb Eb. destruct (c_ctx e) as [ea'|] eqn:Ce; [|discriminate]. destruct (c_ctx c) as [cb'|] eqn:Cc; [|discriminate].
    injection Ea as ->. injection Eb as ->. bind2 E mg k2 EM. inversion E; subst s' k2. clear E. rewrite Hf in EM. cbn [negb] in EM.
    cbn [key_eqb] in K0. apply andb_true_iff in K0 as (K0 & _). apply andb_true_iff in K0 as (K1 & K2). apply Z.eqb_eq in K1, K2.
    destruct (M e ea cb mg _ Pe ltac:(congruence) ltac:(congruence) Ce eq_refl EM) as (Pu & Kk').
    destruct (set_nth_app _ _ (upd unit e c mg) _ Ne) as (l1 & l2 & El & Es & Ll).
    assert (Ns : forall e0, In e0 (set_nth i (upd unit e c mg) (configs s)) <-> In e0 l1 \/ e0 = upd unit e c mg \/ In e0 l2).
    { intros e0. rewrite Es, in_app_iff. cbn. intuition. }
    assert (Nc : forall e0, In e0 (configs s) <-> In e0 l1 \/ e0 = e \/ In e0 l2).
    { intros e0. rewrite El, in_app_iff. cbn. intuition. }
    unfold upd in *. cbn [set_hasher full_ctx has_semantic_context configs config_lookup unique_alt].
    split; [first [reflexivity | exact Hh]|]. split; [exact Hf|]. split; [|split; [|split; [exact Kk'|split; [|split; reflexivity]]]].
    + intros c1 n I1. destruct (Hl _ _ I1) as (e1 & N1 & S1 & A1).
      rewrite nth_set_nth. destruct (Nat.eqb_spec i n) as [-> |Hne]; [|eauto].
      assert (Hlt : (n < @length (config unit) (configs s))%nat) by (apply nth_error_Some; unfold pconfig in *; congruence). apply Nat.ltb_lt in Hlt.
      unfold pconfig in *. rewrite Hlt.
      eexists. split; [reflexivity|]. cbn. rewrite Ne in N1. inversion N1; subst. auto.
    + rewrite Forall_forall in *. intros e0 H0. apply Ns in H0 as [H0|[-> |H0]]; [apply Hc, Nc; auto | exact Pu | apply Hc, Nc; auto].
    + intros q j. rewrite key_one. unfold has_key. split.
      * intros (c1 & I1 & A1 & B1). left. apply Ns in I1 as [I1|[-> |I1]]; [exists c1 | exists e | exists c1]; rewrite Nc; auto 6.
      * intros [(c1 & I1 & A1 & B1)|(A1 & B1)].
        -- apply Nc in I1 as [I1|[-> |I1]]; [exists c1 | eexists | exists c1]; rewrite Ns; [auto | | auto].
           split; [right; left; reflexivity|]. auto.
        -- eexists. rewrite Ns. split; [right; left; reflexivity|]. cbn. split; congruence.
  - inversion E; subst s' k'. clear E. cbn [set_hasher full_ctx has_semantic_context configs config_lookup unique_alt].
    split; [first [reflexivity | exact Hh]|]. split; [exact Hf|]. split; [|split; [|split; [exact Kk|split; [|split; reflexivity]]]].
    + intros c1 n [Q|I1].
      * inversion Q; subst. exists c1. rewrite nth_error_app2 by lia. rewrite Nat.sub_diag. auto.
      * destruct (Hl _ _ I1) as (e1 & N1 & R1). exists e1. rewrite nth_error_app1; [auto|]. unfold pconfig in *. apply nth_error_Some. congruence.
    + apply Forall_app. split; [exact Hc|]. constructor; [exact Pc | constructor].
    + intros q j. apply key_app.
Qed.

(** ** The closure of the two alternatives *)
Section Loop.
  Context {S : Type}.
  Variable ts : seek_ops S.
  Variable a : atn.
  Variable ctx : Type.
  Variable sempred : S -> option ctx -> Z -> Z -> bool.
  Variable order : list nat -> list sem -> list sem.
  Variable hash : pctx -> Z.
  Variable fuel : nat.
  Variable start_index : Z.
  Variable precedence : Z.
  Variable outer : ctx.
  Variable entry ops out : Z.
  Variable level : Z -> option Z.
  Variable where_ : Z -> place.
  Hypothesis WF : well_formed a.
  Hypothesis OL : operator_loop a entry ops out level where_.

  Notation sim := (sim S).
  Notation offers := (offers a where_).
  Definition Out (i : Z) : Prop := where_ i = Outside.
  Notation deep := (deep Out).

  Definition inside (c : pconfig) : Prop := c_ctx c = Some EMPTY /\ c_pfs c = false /\
    match where_ (c_state c) with
    | Enter => forall j, offers (c_state c) j -> offers ops j
    | Operator _ => offers ops (c_state c)
    | Leave | Return => True
    | _ => False
    end.
  Definition beyond (c : pconfig) : Prop := where_ (c_state c) = Outside /\ exists x, c_ctx c = Some x /\ deep x.
  Definition stored1 (c : pconfig) : Prop := c_alt c = 1 /\ c_ctx c = Some EMPTY /\ c_pfs c = false /\ exists k, where_ (c_state c) = Operator k /\ c_sem c = Precedence k.
  Definition stored2 (c : pconfig) : Prop := c_alt c = 2 /\ c_sem c = NONE /\ (inside c \/ beyond c).
  Definition stored (c : pconfig) : Prop := stored1 c \/ stored2 c.

  Record sok (cs : pset) : Prop := {
    k_hasher : set_hasher cs = LocalKey;
    k_full : full_ctx cs = false;
    k_lookup : lookup_good (config_lookup cs) (configs cs);
    k_stored : Forall stored (configs cs);
    k_unique : unique_alt cs = 0
  }.
  Lemma sok_dips cs b : sok cs -> sok (set_dips_into_outer_context cs b).
  Proof. intros []. constructor; auto. Qed.

  Lemma merged_empty n mg k k' : merge hash n true EMPTY EMPTY k = Val (mg, k') -> mg = EMPTY /\ k' = k.
  Proof. destruct n; [discriminate|]. cbn [merge]. rewrite pctx_eqb_refl. intros H. injection H as <- <-. auto. Qed.
  Lemma stored_merge e c ea cb mg n k k' : stored e -> stored c -> kdeep Out k -> c_state e = c_state c -> c_alt e = c_alt c -> c_ctx e = Some ea -> c_ctx c = Some cb ->
    merge hash n true ea cb k = Val (mg, k') -> stored (upd unit e c mg) /\ kdeep Out k'.
  Proof.
    intros Se Sc K E1 E2 Ce Cc M. destruct Se as [(A1 & A2 & A3 & k1 & A4 & A5)|(A1 & A2 & A3)].
    - destruct Sc as [(B1 & B2 & B3 & k2 & B4 & B5)|(B1 & _)]; [|congruence].
      rewrite A2 in Ce. injection Ce as <-. rewrite B2 in Cc. injection Cc as <-. apply merged_empty in M as (-> & ->). split; [|exact K].
      left. unfold stored1, upd. cbn. rewrite B3. eauto 10.
    - destruct Sc as [(B1 & _)|(B1 & B2 & B3)]; [congruence|]. destruct A3 as [(I1 & I2 & I3)|(O1 & x & O2 & O3)].
      + destruct B3 as [(J1 & J2 & J3)|(P1 & _)]; [|rewrite E1, P1 in I3; contradiction].
        rewrite I1 in Ce. injection Ce as <-. rewrite J1 in Cc. injection Cc as <-. apply merged_empty in M as (-> & ->). split; [|exact K].
        right. unfold stored2, upd. cbn. rewrite J2. split; [exact A1|]. split; [exact A2|]. left. unfold inside. cbn. auto.
      + destruct B3 as [(J1 & J2 & J3)|(P1 & y & P2 & P3)]; [rewrite <- E1, O1 in J3; contradiction|].
        rewrite O2 in Ce. injection Ce as <-. rewrite P2 in Cc. injection Cc as <-. destruct (merge_deep _ _ _ _ _ _ _ _ O3 P3 K M) as (D & K'). split; [|exact K'].
        right. unfold stored2, upd. cbn. split; [exact A1|]. split; [exact A2|]. right. unfold beyond. cbn. eauto.
  Qed.

  Definition wok (w : cwork (S := S)) : Prop := is_precedence_dfa (m_dfa (fst3 w)) = true /\ kdeep Out (Some (m_cache (fst3 w))) /\ sok (snd (fst w)).
  Definition keys (w : cwork (S := S)) : list pconfig := configs (snd (fst w)).
  Definition ext (w w' : cwork (S := S)) : Prop := wok w' /\ m_input (fst3 w') = m_input (fst3 w) /\ m_dfa (fst3 w') = m_dfa (fst3 w) /\
    (forall q j, has_key (keys w) q j -> has_key (keys w') q j).
  Lemma ext_refl w : wok w -> ext w w.
  Proof. intros H. split; [exact H|]. auto. Qed.
  Lemma ext_trans w1 w2 w3 : ext w1 w2 -> ext w2 w3 -> ext w1 w3.
  Proof. intros (A1 & A2 & A3 & A4) (B1 & B2 & B3 & B4). split; [exact B1|]. split; [congruence|]. split; [congruence|]. auto. Qed.
  Lemma add_ext m cs b c m' cs' : add_to hash m cs c = Val (m', cs') -> stored c -> wok (m, cs, b) -> ext (m, cs, b) (m', cs', b) /\ has_key (configs cs') (c_state c) (c_alt c).
  Proof.
    unfold add_to. intros H Sc (D & K & [H1 H2 H3 H4 H5]). bind2 H s1 k1 E. cbn in K, D, H1, H2, H3, H4, H5.
    destruct (add_gen stored (kdeep Out) hash cs c (Some (m_cache m)) s1 k1 E H1 H2 H3 H4 Sc K) as (A1 & A2 & A3 & A4 & A5 & A6 & A7 & A8).
    { intros e ea cb mg n Pe Es Ea Ce Cc M. eapply stored_merge; eauto. }
    injection H as <- <-. split.
    - split; [|split; [destruct k1; reflexivity|split; [destruct k1; reflexivity|]]].
      + split; [destruct k1; exact D|]. split; [destruct k1; [exact A5 | exact K]|]. constructor; auto. cbn. congruence.
      + intros q j Hk. apply A6. left. exact Hk.
    - apply A6. right. apply key_one. auto.
  Qed.

  Lemma target_is g target : get_state a g = Val target -> state_at a g = Some target /\ st_number target = g.
  Proof. intros H. apply get_state_at in H. split; [exact H | apply WF, H]. Qed.

  Notation epsilon := (get_epsilon_target ts a ctx sempred order start_index precedence outer).
  Notation edge := (closure_edge ts a ctx sempred order start_index precedence outer entry).
  Notation edges := (closure_edges ts a ctx sempred order start_index precedence outer entry).
  Notation work := (closure_work ts a ctx sempred order hash start_index precedence outer entry).
  Notation css := (closure_checking_stop_state ts a ctx sempred order hash start_index precedence outer entry).

  (** *** The second alternative: the end of the loop *)
  Definition pend2 (c : pconfig) (depth : Z) : Prop := depth <= 0 /\ c_alt c = 2 /\ c_sem c = NONE /\
    ((inside c /\ (where_ (c_state c) = Leave \/ depth < 0)) \/ (beyond c /\ depth < 0)).
  Lemma pend2_stored c depth : pend2 c depth -> stored c.
  Proof. intros (_ & A & B & [(C & _)|(C & _)]); right; split; auto. Qed.
  Definition rec2 (rec : rec_closure (S := S)) : Prop := forall c col depth w w', rec c col depth w = Val w' -> pend2 c depth -> wok w -> ext w w'.

  (** not at the end of a rule *)
  Lemma epsilon2 m c s t col depth m' o : state_at a (c_state c) = Some s -> (where_ (c_state c) <> Outside -> ~ Ll1Spec.is_stop s) -> In t (st_trans s) -> pend2 c depth ->
    epsilon m c t col (depth =? 0) false false = Val (m', o) -> m' = m /\
    forall c', o = Some c' -> (forall d, d <= 0 -> (depth < 0 -> d < 0) -> pend2 c' d) /\ (match t with RuleTr _ _ _ _ => depth < 0 | _ => True end).
  Proof.
    intros Es Ns It (P0 & P1 & P2 & P3) H.
    assert (Consuming : forall g, (let! e := Val false in if e : bool then let! target := get_state a g in Val (m, Some (pcloned c target)) else Val (m, None)) = Val (m', o) -> m' = m /\ o = None).
    { cbn. intros g Q. injection Q as <- <-. auto. }
    destruct P3 as [(I & P3)|((O1 & x & O2 & O3) & P3)].
    - assert (Move : forall g target reach, get_state a g = Val target -> inside (Config g 2 (Some EMPTY) NONE reach false tt) -> (where_ g = Leave \/ (where_ (c_state c) <> Leave)) ->
        forall d, d <= 0 -> (depth < 0 -> d < 0) -> pend2 (Config (st_number target) (c_alt c) (c_ctx c) (c_sem c) (c_reach c) (c_pfs c) (c_type c)) d).
      { intros g target reach Eg Ig Wg d Hz Hd. apply target_is in Eg as (_ & ->). destruct I as (I1 & I2 & I3). unfold pend2. cbn. split; [exact Hz|]. split; [exact P1|]. split; [exact P2|]. left.
        split; [destruct Ig as (_ & _ & Ig); unfold inside; cbn in *; auto|]. destruct Wg as [Wg|Wg]; [left; exact Wg|]. destruct P3 as [P3|P3]; [contradiction | right; auto]. }
      destruct I as (I1 & I2 & I3). destruct (where_ (c_state c)) eqn:Ew; try contradiction; assert (Nst : ~ Ll1Spec.is_stop s) by (apply Ns; discriminate).
      + destruct (ol_enter _ _ _ _ _ _ OL _ _ _ Es Ew It) as [(g & o' & -> & Wg)|(g & k & -> & Wg)].
        * cbn [get_epsilon_target] in H. bind H target Eg. injection H as <- <-. split; [reflexivity|]. intros c' E. injection E as <-. split; [|exact Logic.I].
          eapply (Move g target 0 Eg); [|right; discriminate]. split; [reflexivity|]. split; [reflexivity|]. cbn. rewrite Wg. intros j Of. apply I3. eapply of_epsilon; [|exact Of]. exists s. eauto.
        * cbn [get_epsilon_target] in H. bind H target Eg. destruct P3 as [P3|P3]; [discriminate|]. replace (depth =? 0) with false in H by lia. rewrite andb_false_r in H. cbn [predicate_step] in H.
          injection H as <- <-. split; [reflexivity|]. intros c' E. injection E as <-. split; [|exact Logic.I].
          eapply (Move g target 0 Eg); [|right; discriminate]. split; [reflexivity|]. split; [reflexivity|]. cbn. rewrite Wg. apply I3. eapply of_test; [exists s; eauto|]. eapply of_here; exact Wg.
      + destruct (ol_operator _ _ _ _ _ _ OL _ _ _ _ Es Ew It) as (Pl & _). destruct t; try contradiction; cbn [get_epsilon_target] in H; apply Consuming in H as (-> & ->); split; auto; discriminate.
      + destruct (ol_leave _ _ _ _ _ _ OL _ _ _ Es Ew Nst It) as (Si & Wg). destruct t; try contradiction; cbn [get_epsilon_target get_target] in *; bind H tg Eg; injection H as <- <-; (split; [reflexivity|]);
          intros c' E; injection E as <-; (split; [|exact Logic.I]); (eapply (Move _ tg 0 Eg); [|left; exact Wg]); (split; [reflexivity|]); (split; [reflexivity|]); cbn; rewrite Wg; exact Logic.I.
      + destruct (Z.eq_dec (c_state c) entry) as [Ee|Ne].
        * destruct (ol_entry _ _ _ _ _ _ OL) as (sz & k & gr & bk & o1 & o2 & E0 & _ & Tr). rewrite Ee in Es. rewrite E0 in Es. injection Es as ->. rewrite Tr in It.
          destruct (ol_places _ _ _ _ _ _ OL) as (_ & Wo & Wl).
          destruct It as [<-|[<-|[]]]; cbn [get_epsilon_target] in H; bind H target Eg; injection H as <- <-; (split; [reflexivity|]); intros c' E; injection E as <-; (split; [|exact Logic.I]);
            (eapply (Move _ target 0 Eg); [|right; discriminate]); (split; [reflexivity|]); (split; [reflexivity|]); cbn; rewrite ?Wo, ?Wl; auto.
        * destruct (ol_return _ _ _ _ _ _ OL _ _ _ Es Ew Ne It) as (Si & Wg). destruct t; try contradiction; cbn [get_epsilon_target get_target] in *; bind H tg Eg; injection H as <- <-; (split; [reflexivity|]);
          intros c' E; injection E as <-; (split; [|exact Logic.I]); (eapply (Move _ tg 0 Eg); [|right; discriminate]); (split; [reflexivity|]); (split; [reflexivity|]); cbn; rewrite Wg; exact Logic.I.
    - assert (Move : forall g target y, get_state a g = Val target -> where_ g = Outside -> deep y ->
        forall d, d <= 0 -> (depth < 0 -> d < 0) -> pend2 (Config (st_number target) (c_alt c) (Some y) (c_sem c) (c_reach c) (c_pfs c) (c_type c)) d).
      { intros g target y Eg Wg Dy d Hz Hd. apply target_is in Eg as (_ & ->). unfold pend2. cbn. split; [exact Hz|]. split; [exact P1|]. split; [exact P2|]. right. split; [split; [exact Wg | exists y; auto] | auto]. }
      pose proof (ol_outside _ _ _ _ _ _ OL _ _ _ Es O1 It) as Ot. destruct t; try contradiction; cbn [get_epsilon_target get_target] in *; try (apply Consuming in H as (-> & ->); split; [reflexivity | discriminate]);
        try (injection H as <- <-; split; [reflexivity | discriminate]).
      + bind H tg Eg. destruct Ot as (W1 & W2). unfold rule_transition in H. rewrite O2 in H. cbn [unwrap obindo] in H. injection H as <- <-. split; [reflexivity|].
        intros c' E. injection E as <-. split; [|exact P3]. apply (Move _ tg _ Eg W1). apply deep_push; auto.
      + bind H tg Eg. injection H as <- <-. split; [reflexivity|]. intros c' E. injection E as <-. split; [|exact Logic.I]. unfold pcloned. rewrite O2. apply (Move _ tg _ Eg Ot O3).
      + bind H tg Eg. injection H as <- <-. split; [reflexivity|]. intros c' E. injection E as <-. split; [|exact Logic.I]. unfold action_transition, pcloned. rewrite O2. apply (Move _ tg _ Eg Ot O3).
      + bind H tg Eg. replace (depth =? 0) with false in H by lia. rewrite andb_false_r in H. cbn [predicate_step] in H. injection H as <- <-. split; [reflexivity|].
        intros c' E. injection E as <-. split; [|exact Logic.I]. unfold pcloned. rewrite O2. apply (Move _ tg _ Eg Ot O3).
  Qed.

  Lemma edge2 rec c s col depth first t w w' : rec2 rec -> state_at a (c_state c) = Some s -> In t (st_trans s) -> pend2 c depth ->
    edge rec c s col false depth false first t w = Val w' -> wok w -> ext w w'.
  Proof.
    intros R Es It P H W. unfold closure_edge in H. bind H drop Ed. destruct drop; [injection H as <-; apply ext_refl, W|]. destruct w as [[m cs] busy].
    bind2 H m1 o E.
    assert (Lv : where_ (c_state c) = Outside \/ ~ Ll1Spec.is_stop s \/ (where_ (c_state c) = Leave /\ Ll1Spec.is_stop s /\ inside c)).
    { destruct P as (_ & _ & _ & [((I1 & I2 & I3) & P3)|((O1 & _) & _)]); [|left; exact O1]. destruct (where_ (c_state c)) eqn:Ew; try contradiction.
      - right. left. apply (ol_enter_state _ _ _ _ _ _ OL _ _ Es Ew).
      - right. left. apply (ol_operator_state _ _ _ _ _ _ OL _ _ _ Es Ew).
      - destruct (PredictModel.is_stop s) eqn:Q; [|right; left; apply stop_not, Q]. right. right. split; [reflexivity|]. split; [apply stop_iff, Q|]. split; [exact I1|]. split; [exact I2|]. rewrite Ew. exact Logic.I.
      - right. left. apply (ol_return_state _ _ _ _ _ _ OL _ _ Es Ew). }
    destruct Lv as [Lv|Lv].
    - destruct (epsilon2 _ _ _ _ _ _ _ _ Es (fun N => False_ind _ (N Lv)) It P E) as (-> & Q). destruct o as [c'|]; [|injection H as <-; apply ext_refl, W].
      destruct (Q _ eq_refl) as (Q1 & Q2). pose proof (proj1 P) as P0. assert (Pd : depth < 0) by (destruct P as (_ & _ & _ & [((I1 & I2 & I3) & P3)|(_ & P3)]); [rewrite Lv in I3; contradiction | exact P3]).
      destruct (PredictModel.is_stop s) eqn:Est.
      + bind H c2 E2. assert (Qc : pend2 c2 (depth - 1)).
        { specialize (Q1 (depth - 1) ltac:(lia) ltac:(lia)). assert (Wc : where_ (c_state c') = Outside).
          { pose proof (ol_outside _ _ _ _ _ _ OL _ _ _ Es Lv It) as Ot.
            destruct t; try contradiction; cbn [get_epsilon_target get_target] in *; try (cbn in E; discriminate); bind E tg Eg; apply target_is in Eg as (_ & Ng); try (bind E c4 E4);
              try (unfold rule_transition in E4; bind E4 x4 E5; injection E4 as <-); try (unfold predicate_step in E; replace (depth =? 0) with false in E by lia; rewrite andb_false_r in E);
              injection E as <-; cbn; rewrite Ng; first [exact Ot | exact (proj1 Ot)]. }
          unfold leave_decision_rule in E2. bind E2 c3 E3. injection E2 as <-. assert (B3 : c3 = c' \/ c3 = set_suppressed c').
          { destruct (is_precedence_dfa (m_dfa m)); [|injection E3 as <-; auto]. bind E3 o' Eo. bind E3 se Ese. injection E3 as <-. destruct (o' =? st_rule se); auto. }
          destruct Q1 as (R0 & R1 & R2 & [((J1 & J2 & J3) & _)|((J1 & x & J2 & J3) & J4)]); [rewrite Wc in J3; contradiction|].
          destruct B3 as [-> | ->]; (split; [exact R0|]); (split; [exact R1|]); (split; [exact R2|]); right; (split; [|exact J4]); (split; [exact J1|]); exists x; auto. }
        assert (W' : wok (m, set_dips_into_outer_context cs true, c2 :: busy)).
        { destruct W as (W1 & W2 & W3). split; [exact W1|]. split; [exact W2|]. apply sok_dips, W3. }
        destruct (busy_has busy c2); [injection H as <-; apply ext_refl, W|]. exact (R _ _ _ _ _ H Qc W').
      + destruct (negb (is_epsilon t) && busy_has busy c'); [injection H as <-; apply ext_refl, W|].
        refine (R _ _ _ _ _ H _ W). apply Q1; destruct t; try lia; replace (depth >=? 0) with false by lia; lia.
    - destruct Lv as [Est|(Ew & Est & I1 & I2 & I3)].
      + destruct (epsilon2 _ _ _ _ _ _ _ _ Es (fun _ => Est) It P E) as (-> & Q). destruct o as [c'|]; [|injection H as <-; apply ext_refl, W].
        destruct (Q _ eq_refl) as (Q1 & Q2). apply stop_not in Est. rewrite Est in H. destruct (negb (is_epsilon t) && busy_has busy c'); [injection H as <-; apply ext_refl, W|].
        pose proof (proj1 P) as P0. refine (R _ _ _ _ _ H _ W). apply Q1; destruct t; try lia; replace (depth >=? 0) with false by lia; lia.
      + destruct (ol_end _ _ _ _ _ _ OL _ _ _ Es Ew Est It) as (f & o' & -> & Wf). apply stop_iff in Est. rewrite Est in H. cbn [get_epsilon_target] in E. bind E target Eg. injection E as <- <-.
        bind H c2 E2. apply target_is in Eg as (Eg & Ng). destruct P as (P0 & P1 & P2 & _). assert (Qc : pend2 c2 (depth - 1)).
        { unfold leave_decision_rule in E2. bind E2 c3 E3. injection E2 as <-. destruct W as (D & _). cbn in D. rewrite D in E3. cbn [obindo] in E3. bind E3 se Ese. injection E3 as <-.
          apply get_state_at in Ese. split; [lia|]. destruct Wf as [Wf|(Wf & No)].
          - destruct (o' =? st_rule se); (split; [exact P1|]); (split; [exact P2|]); right; (split; [|lia]); unfold beyond; cbn; rewrite Ng; (split; [exact Wf|]); exists EMPTY; (split; [exact I1 | apply deep_EMPTY]).
          - assert (Hn : (o' =? st_rule se) = false) by (apply Z.eqb_neq; unfold rule_of in No; rewrite Ese in No; exact No). rewrite Hn. split; [exact P1|]. split; [exact P2|]. left.
            split; [|right; lia]. unfold inside. cbn. rewrite Ng, Wf. auto. }
        assert (W' : wok (m, set_dips_into_outer_context cs true, c2 :: busy)).
        { destruct W as (W1 & W2 & W3). split; [exact W1|]. split; [exact W2|]. apply sok_dips, W3. }
        destruct (busy_has busy c2); [injection H as <-; apply ext_refl, W|]. exact (R _ _ _ _ _ H Qc W').
  Qed.

  Lemma edges2 rec c s col depth : rec2 rec -> state_at a (c_state c) = Some s -> pend2 c depth -> forall l first w w', incl l (st_trans s) ->
    edges rec c s col false depth false first l w = Val w' -> wok w -> ext w w'.
  Proof.
    intros R Es P. induction l as [|t l IH]; intros first w w' Il H W; cbn [closure_edges] in H; [injection H as <-; apply ext_refl, W|].
    bind H w1 E. assert (X := edge2 _ _ _ _ _ _ _ _ _ R Es (Il t (or_introl eq_refl)) P E W). eapply ext_trans; [exact X|].
    eapply IH; [|exact H | apply X]. intros x I. apply Il. right. exact I.
  Qed.
  Lemma work2 rec c col depth w w' : rec2 rec -> pend2 c depth -> work rec c col false depth false w = Val w' -> wok w -> ext w w'.
  Proof.
    intros R P H W. unfold closure_work in H. bind H s Es. apply get_state_at in Es. bind H w1 E. assert (X : ext w w1).
    { destruct (st_eps_only s); [injection E as <-; apply ext_refl, W|]. destruct w as [[m cs] b]. bind2 E m1 cs1 E1. injection E as <-. eapply add_ext; eauto. eapply pend2_stored; eauto. }
    eapply ext_trans; [exact X|]. eapply edges2; [exact R | exact Es | exact P | apply incl_refl | exact H | apply X].
  Qed.
  Lemma entry_in x i r p : get_return_state x i = Val r -> get_parent x i = Val p -> In (r, p) (entries x).
  Proof.
    destruct x as [r0 p0|rs ps]; cbn; [intros A B; injection A as <-; injection B as <-; auto|].
    revert ps i. induction rs as [|r1 rs IH]; intros ps i A B; [destruct i; discriminate|]. destruct ps as [|p1 ps]; [destruct i; discriminate|].
    destruct i as [|i]; cbn in A, B; [injection A as <-; injection B as <-; left; reflexivity | right; eapply IH; eauto].
  Qed.
  Lemma return2 rec c x col depth : rec2 rec -> c_alt c = 2 -> c_sem c = NONE -> depth < 0 -> deep x -> forall l w w',
    return_to (S := S) rec c x col depth l w = Val w' -> wok w -> ext w w'.
  Proof.
    intros R P1 P2 Pd Dx. induction l as [|i l IH]; intros w w' H W; cbn [return_to] in H; [injection H as <-; apply ext_refl, W|].
    bind H r Er. destruct (r =? EMPTY_RETURN_STATE) eqn:Q.
    - destruct (negb (Nat.eqb i (pc_length x - 1))); [discriminate|]. eapply IH; eauto.
    - bind H p Ep. bind H w1 E1. pose proof (entry_in _ _ _ _ Er Ep) as In1. apply deep_iff in Dx. destruct p as [q|]; [|apply (proj2 Dx) in In1; apply Z.eqb_neq in Q; contradiction].
      destruct (proj1 Dx _ _ In1) as (Or & Dq). assert (X : ext w w1).
      { refine (R _ _ _ _ _ E1 _ W). split; [lia|]. split; [exact P1|]. split; [exact P2|]. right. split; [|lia]. split; [exact Or|]. exists q. auto. }
      eapply ext_trans; [exact X|]. eapply IH; [exact H | apply X].
  Qed.
  Lemma css2 n : rec2 (css n false false).
  Proof.
    induction n as [|n IH]; intros c col depth w w' H P W; cbn [closure_checking_stop_state] in H; [discriminate|].
    bind H s Es. apply get_state_at in Es. destruct (PredictModel.is_stop s) eqn:Est; [|eapply work2; eauto].
    bind H x Ex. bind H e Ee. destruct (negb e) eqn:En; [|eapply work2; eauto]. bind H lst El. bind H w1 E1.
    assert (X : ext w w1) by (destruct (lst =? EMPTY_RETURN_STATE); [eapply work2; eauto | injection E1 as <-; apply ext_refl, W]).
    eapply ext_trans; [exact X|]. destruct P as (P0 & P1 & P2 & [((I1 & _) & _)|((O1 & y & O2 & O3) & P3)]).
    - rewrite I1 in Ex. injection Ex as <-. injection Ee as <-. discriminate.
    - rewrite O2 in Ex. injection Ex as <-. eapply return2; [exact IH | exact P1 | exact P2 | exact P3 | exact O3 | exact H | apply X].
  Qed.

  (** *** The first alternative: one more operator *)
  Definition pend1 (c : pconfig) : Prop := c_alt c = 1 /\ c_ctx c = Some EMPTY /\ c_pfs c = false /\
    ((where_ (c_state c) = Enter /\ c_sem c = NONE) \/ (exists k, where_ (c_state c) = Operator k /\ c_sem c = Precedence k)).
  Definition rec1 (rec : rec_closure (S := S)) : Prop := forall c w w', rec c true 0 w = Val w' -> pend1 c -> wok w ->
    ext w w' /\ forall j, offers (c_state c) j -> has_key (keys w') j 1.

  Lemma edge1 rec c s first t w w' : rec1 rec -> state_at a (c_state c) = Some s -> In t (st_trans s) -> pend1 c ->
    edge rec c s true false 0 false first t w = Val w' -> wok w ->
    ext w w' /\ (match t with Epsilon g _ | PrecedenceTr g _ => forall j, offers g j -> has_key (keys w') j 1 | _ => True end).
  Proof.
    intros R Es It (P1 & P2 & P3 & P4) H W. unfold closure_edge in H. bind H drop Ed.
    assert (Hd : drop = false).
    { clear H. destruct first; [|injection Ed as <-; reflexivity]. unfold can_drop_loop_entry_edge in Ed. bind Ed sz Esz. destruct (negb (is_loop_entry sz)); [injection Ed as <-; reflexivity|].
      rewrite P2 in Ed. cbn in Ed. injection Ed as Ed. auto. }
    subst drop. destruct w as [[m cs] busy]. bind2 H m1 o E. destruct P4 as [(Ew & Se)|(k & Ew & Se)].
    - destruct (ol_enter_state _ _ _ _ _ _ OL _ _ Es Ew) as (Ns & _). apply stop_not in Ns. rewrite Ns in H.
      destruct (ol_enter _ _ _ _ _ _ OL _ _ _ Es Ew It) as [(g & o' & -> & Wg)|(g & k & -> & Wg)]; cbn [get_epsilon_target] in E; bind E target Eg; apply target_is in Eg as (Eg & Ng).
      + injection E as <- <-. cbn in H. destruct (R _ _ _ H) as (X & K); [|exact W|].
        * split; [exact P1|]. split; [exact P2|]. split; [exact P3|]. left. cbn. rewrite Ng. auto.
        * split; [exact X|]. cbn in K. rewrite Ng in K. exact K.
      + cbn in E. rewrite Se in E. cbn in E. injection E as <- <-. cbn in H. destruct (R _ _ _ H) as (X & K); [|exact W|].
        * split; [exact P1|]. split; [exact P2|]. split; [exact P3|]. right. exists k. cbn. rewrite Ng. auto.
        * split; [exact X|]. cbn in K. rewrite Ng in K. exact K.
    - destruct (ol_operator _ _ _ _ _ _ OL _ _ _ _ Es Ew It) as (Pl & _).
      destruct t; try contradiction; cbn in E; injection E as <- <-; injection H as <-; (split; [apply ext_refl, W | exact Logic.I]).
  Qed.
  Lemma edges1 rec c s : rec1 rec -> state_at a (c_state c) = Some s -> pend1 c -> forall l first w w', incl l (st_trans s) ->
    edges rec c s true false 0 false first l w = Val w' -> wok w ->
    ext w w' /\ (forall t, In t l -> match t with Epsilon g _ | PrecedenceTr g _ => forall j, offers g j -> has_key (keys w') j 1 | _ => True end).
  Proof.
    intros R Es P. induction l as [|t l IH]; intros first w w' Il H W; cbn [closure_edges] in H; [injection H as <-; split; [apply ext_refl, W | contradiction]|].
    bind H w1 E. destruct (edge1 _ _ _ _ _ _ _ R Es (Il t (or_introl eq_refl)) P E W) as (X & K).
    destruct (IH _ _ _ (fun x I => Il x (or_intror I)) H (proj1 X)) as (X' & K'). split; [eapply ext_trans; eauto|].
    intros t0 [<-|I]; [|apply K', I]. destruct X' as (_ & _ & _ & X'). destruct t; auto.
  Qed.
  Lemma css1 n : rec1 (css n false false).
  Proof.
    induction n as [|n IH]; intros c w w' H P W; cbn [closure_checking_stop_state] in H; [discriminate|].
    bind H s Es. apply get_state_at in Es. assert (P' := P). destruct P' as (P1 & P2 & P3 & P4).
    assert (Ns : PredictModel.is_stop s = false).
    { apply stop_not. destruct P4 as [(Ew & _)|(k & Ew & _)]; [apply (ol_enter_state _ _ _ _ _ _ OL _ _ Es Ew) | apply (ol_operator_state _ _ _ _ _ _ OL _ _ _ Es Ew)]. }
    rewrite Ns in H. unfold closure_work in H. bind H sz Esz. apply get_state_at in Esz. rewrite Es in Esz. injection Esz as <-. bind H w1 E.
    destruct P4 as [(Ew & Se)|(k & Ew & Se)].
    - destruct (ol_enter_state _ _ _ _ _ _ OL _ _ Es Ew) as (_ & Eo). rewrite Eo in E. injection E as <-.
      destruct (edges1 _ _ _ IH Es P _ _ _ _ (incl_refl _) H W) as (X & K). split; [exact X|]. intros j Of.
      inversion Of; subst; [congruence | |]; match goal with L : leads _ _ _ |- _ => destruct L as (s1 & L1 & _ & L2) end; rewrite Es in L1; injection L1 as <-; apply K in L2; auto.
    - destruct (ol_operator_state _ _ _ _ _ _ OL _ _ _ Es Ew) as (_ & Eo). rewrite Eo in E. destruct w as [[m cs] b]. bind2 E m1 cs1 E1. injection E as <-.
      destruct (add_ext m cs b c m1 cs1 E1) as (X & K); [left; split; [exact P1|]; split; [exact P2|]; split; [exact P3|]; eauto | exact W |].
      destruct (edges1 _ _ _ IH Es P _ _ _ _ (incl_refl _) H (proj1 X)) as (X' & K'). split; [eapply ext_trans; eauto|]. intros j Of.
      inversion Of; subst; [apply X'; rewrite P1 in K; exact K | |]; match goal with L : leads _ _ _ |- _ => destruct L as (s1 & L1 & _ & L2) end; rewrite Es in L1; injection L1 as <-;
        destruct (ol_operator _ _ _ _ _ _ OL _ _ _ _ Es Ew L2) as (Pl & _); contradiction.
  Qed.

  (** *** The start state before the filter *)
  Definition all_offered (cs : pset) : Prop := forall j, offers ops j -> has_key (configs cs) j 1.
  Lemma start_ok m m' cs : compute_start_state ts a ctx sempred order hash fuel start_index precedence outer entry entry EMPTY false m = Val (m', cs) ->
    is_precedence_dfa (m_dfa m) = true -> kdeep Out (Some (m_cache m)) ->
    sok cs /\ all_offered cs /\ kdeep Out (Some (m_cache m')) /\ m_dfa m' = m_dfa m /\ m_input m' = m_input m.
  Proof.
    unfold compute_start_state. intros H D K. bind H st Est. apply get_state_at in Est.
    destruct (ol_entry _ _ _ _ _ _ OL) as (sz & k & gr & bk & o1 & o2 & E0 & _ & Tr). rewrite E0 in Est. injection Est as <-. rewrite Tr in H. cbn [start_loop] in H.
    destruct (ol_places _ _ _ _ _ _ OL) as (_ & Wo & Wl).
    bind H g1 Eg1. apply target_is in Eg1 as (Eg1 & Ng1). bind3 H m1 cs1 b1 C1. bind H g2 Eg2. apply target_is in Eg2 as (Eg2 & Ng2). bind3 H m2 cs2 b2 C2. cbn [get_target] in *.
    injection H as <- <-. unfold closure in C1, C2. bind C1 w1 D1. destruct w1 as [[? ?] ?]. cbn in C1. injection C1 as -> -> ->. bind C2 w2 D2. destruct w2 as [[? ?] ?]. cbn in C2. injection C2 as -> -> ->.
    destruct (css1 _ _ _ _ D1) as (X1 & K1).
    { split; [reflexivity|]. split; [reflexivity|]. split; [reflexivity|]. left. cbn. rewrite Ng1. auto. }
    { split; [exact D|]. split; [exact K|]. constructor; cbn; auto. intros c i []. }
    assert (X2 : ext (m1, cs1, []) (m2, cs2, b2)).
    { refine (css2 _ _ _ _ _ _ D2 _ _); [|exact (proj1 X1)]. split; [lia|]. split; [reflexivity|]. split; [reflexivity|]. left. unfold inside. cbn. rewrite Ng2, Wl. auto. }
    destruct X1 as (A1 & A2 & A3 & A4), X2 as ((B0 & B1 & B1') & B2 & B3 & B4). cbn in *. split; [exact B1'|]. split; [|split; [exact B1|split; congruence]].
    intros j Of. apply B4. apply K1. rewrite Ng1. exact Of.
  Qed.
End Loop.
