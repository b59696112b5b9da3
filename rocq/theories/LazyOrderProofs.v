(** The order of the configurations of a delimited rule (C105). *)
From Coq Require Import ZArith List Sorted Bool Lia.
From Coq Require Import ZifyBool ZifyNat.
From Verif Require Import Outcome CharStreamModel CharStreamSpec CharStreamProofs PredContextModel SemContextModel
  ConfigSetModel ConfigSetProofs DfaModel DfaProofs AtnModel AtnSpec AtnProofs Ll1Spec LexerModel LexerSpec LexerProofs
  LexMatchSpec LexMatchProofs LexCacheProofs LexTextProofs LazySpec.
Import ListNotations.
Local Open Scope Z_scope.
Local Open Scope outcome_scope.

Section Order.
  Variable D : input_data.
  Variable U : Type.
  Variable a : atn.
  Variable sempred : Z -> Z -> lexer U -> bool * lexer U.
  Variable ctx_hash : pctx -> Z.
  Variable actions_hash : list lexer_action -> Z.
  Hypothesis FM : lexer_formed a.
  Notation lexer := (lexer U).
  Notation closure := (closure D U a sempred ctx_hash actions_hash).
  Variable A : Z.

  (** the configuration of the rule at state [i] *)
  Definition cn (p : bool) (i : Z) : lconfig := Config i A (Some EMPTY) NONE 0 false (LexerType None p).
  Lemma cn_cfg p i : cfg (cn p i) (i, []).
  Proof. repeat split. Qed.
  Definition ng (s : atn_state) : bool := match st_type s with DecisionState _ nongreedy _ => nongreedy | _ => false end.
  (** whoever is at a non-greedy decision has passed one *)
  Definition noted (p : bool) (i : Z) : Prop := nongreedy_at a (i, []) -> p = true.
  Lemma cloned_cn p i s g : state_at a g = Some s -> cloned (cn p i) s = cn (if p then true else ng s) g.
  Proof. intros E. unfold cloned, cn. cbn. rewrite (number a FM _ _ E). destruct p; reflexivity. Qed.
  Lemma noted_clone (p : bool) s g : state_at a g = Some s -> noted (if p then true else ng s) g.
  Proof. intros E (s' & E' & N). cbn in E'. assert (s' = s) by congruence. subst s'. destruct p; [reflexivity|]. unfold ng. unfold nongreedy_state in N. destruct (st_type s); try contradiction. exact N. Qed.

  Lemma target_state i s t : state_at a i = Some s -> In t (st_trans s) -> exists s', state_at a (get_target t) = Some s'.
  Proof.
    intros E I. destruct (proj2 (proj2 FM) _ _ E) as (_ & _ & W). destruct (W t I) as (X & _). unfold exists_state in X.
    destruct (state_at a (get_target t)); [eauto | congruence].
  Qed.
  Lemma quiet_state i s t : state_at a i = Some s -> ~ is_stop s -> In t (st_trans s) -> ~ consuming t -> st_eps_only s = true.
  Proof.
    intros E N I C. destruct (proj2 (proj2 FM) _ _ E) as (_ & [(S & _)|[(_ & X & _)|(_ & _ & [X|(t' & X & C')])]] & _); [contradiction | exact X | |].
    - rewrite X in I. contradiction.
    - rewrite X in I. destruct I as [<-|[]]. contradiction.
  Qed.
  Lemma reading_state i s t : state_at a i = Some s -> ~ is_stop s -> st_trans s = [t] -> consuming t -> st_eps_only s = false.
  Proof.
    intros E N I C. destruct (proj2 (proj2 FM) _ _ E) as (_ & [(S & _)|[(_ & _ & X)|(_ & X & _)]] & _); [contradiction | | exact X].
    exfalso. apply (X t); [rewrite I; left; reflexivity | exact C].
  Qed.

  (** at a state whose transitions consume nothing *)
  Lemma closure_quiet fuel sp i s c r cs l t : state_at a i = Some s -> ~ is_stop s -> In t (st_trans s) -> ~ consuming t -> c_state c = i ->
    closure (S fuel) sp false c (r, cs, l) =
    closure_each U (closure_trans D U a sempred actions_hash (closure fuel sp false) c sp false) (st_trans s) (r, cs, l).
  Proof.
    intros E N I C Ec. cbn [LexerModel.closure]. rewrite Ec, (state_of_ok a _ _ E). cbn [obindo]. rewrite (quiet_state _ _ _ E N I C). cbn [negb andb obindo].
    unfold is_stop in N. destruct (st_type s); try reflexivity. congruence.
  Qed.
  Lemma trans_epsilon (rec : rec_closure U) sp p i g n s r cs l : state_at a g = Some s ->
    closure_trans D U a sempred actions_hash rec (cn p i) sp false (Epsilon g n) (r, cs, l) = rec (cn (if p then true else ng s) g) (r, cs, l).
  Proof. intros E. unfold closure_trans, get_epsilon_target. cbn [get_target]. rewrite (state_of_ok a _ _ E). cbn [obindo]. rewrite (cloned_cn _ _ _ _ E). reflexivity. Qed.

  Lemma each_one {X} f (x : X) (st : bool * lset * lexer) : closure_each U f [x] st = let! st := f x st in Val st.
  Proof. reflexivity. Qed.
  Lemma let_id {X} (o : outcome X) : (let! x := o in Val x) = o.
  Proof. destruct o; reflexivity. Qed.

  Lemma closure_leads i j : leads a i j -> forall fuel sp p r cs l res, closure fuel sp false (cn p i) (r, cs, l) = Val res ->
    exists fuel' p', closure fuel' sp false (cn p' j) (r, cs, l) = Val res /\ (p = true -> p' = true) /\ (noted p i -> noted p' j).
  Proof.
    induction 1 as [i|i s g n j E N T Le IH]; intros fuel sp p r cs l res H; [eauto 10|].
    destruct fuel as [|fuel]; [discriminate|].
    rewrite (closure_quiet _ _ i s _ _ _ _ (Epsilon g n) E N) in H; [|rewrite T; left; reflexivity | intros X; exact X | reflexivity].
    rewrite T, each_one, let_id in H. destruct (target_state i s (Epsilon g n) E ltac:(rewrite T; left; reflexivity)) as (s' & E'). cbn [get_target] in E'.
    rewrite (trans_epsilon _ _ _ _ _ _ _ _ _ _ E') in H. destruct (IH _ _ _ _ _ _ _ H) as (f' & p' & H1 & H2 & H3).
    exists f', p'. split; [exact H1|]. split; [|intros _; apply H3, noted_clone, E']. intros ->. apply H2. reflexivity.
  Qed.

  Lemma closure_one fuel sp p i t r cs l r' cs' l' : reads_one a i t -> set_inv cs -> closure fuel sp false (cn p i) (r, cs, l) = Val (r', cs', l') ->
    r' = r /\ set_inv cs' /\ exists new, configs cs' = configs cs ++ new /\ (new = [] \/ new = [cn p i]).
  Proof.
    intros (s & E & N & T & C) I H. destruct fuel as [|fuel]; [discriminate|]. cbn [LexerModel.closure] in H. cbn [c_state cn] in H.
    rewrite (state_of_ok a _ _ E) in H. cbn [obindo] in H.
    assert (H' : (let! cs0 := if negb (st_eps_only s) && (negb r || negb (lt_passed (c_type (cn p i)))) then add ctx_hash cs (cn p i) else Val cs in
      closure_each U (closure_trans D U a sempred actions_hash (closure fuel sp false) (cn p i) sp false) (st_trans s) (r, cs0, l)) = Val (r', cs', l')).
    { unfold is_stop in N. destruct (st_type s); try exact H. congruence. }
    clear H. rewrite (reading_state _ _ _ E N T C) in H'. cbn [negb andb] in H'. step H' cs1 E1.
    destruct (target_state i s t E ltac:(rewrite T; left; reflexivity)) as (s' & E').
    rewrite T, each_one, let_id in H'. unfold closure_trans, get_epsilon_target in H'. rewrite (state_of_ok a _ _ E') in H'. cbn [obindo] in H'.
    assert (Q : (r', cs', l') = (r, cs1, l)) by (destruct t; try contradiction; cbn in H'; congruence). injection Q as -> -> ->. clear H'.
    split; [reflexivity|]. destruct (negb r || negb (lt_passed (c_type (cn p i)))).
    - destruct (add_total ctx_hash cs (cn p i) (i, []) I (cn_cfg p i)) as (cs2 & E2 & I2 & _ & new & E3 & E4). assert (cs2 = cs1) by congruence. subst cs2. eauto.
    - injection E1 as <-. split; [exact I|]. exists []. rewrite app_nil_r. auto.
  Qed.
  Lemma closure_to_one fuel sp p i j t r cs l r' cs' l' : leads a i j -> reads_one a j t -> set_inv cs ->
    closure fuel sp false (cn p i) (r, cs, l) = Val (r', cs', l') ->
    r' = r /\ set_inv cs' /\ exists p' new, (p = true -> p' = true) /\ configs cs' = configs cs ++ new /\ (new = [] \/ new = [cn p' j]).
  Proof.
    intros Le R I H. destruct (closure_leads _ _ Le _ _ _ _ _ _ _ H) as (f' & p' & H1 & H2 & _).
    destruct (closure_one _ _ _ _ _ _ _ _ _ _ _ R I H1) as (-> & I' & new & E & F). split; [reflexivity|]. split; [exact I'|]. exists p', new. auto.
  Qed.

  (** at the end *)
  Definition at_stop (c : lconfig) : Prop := c_alt c = A /\ exists s, state_at a (c_state c) = Some s /\ is_stop s.
  Lemma closure_finishes i : finishes a i -> forall fuel sp c r cs l r' cs' l', cfg c (i, []) -> c_alt c = A -> set_inv cs ->
    closure fuel sp false c (r, cs, l) = Val (r', cs', l') ->
    r' = true /\ set_inv cs' /\ exists new, configs cs' = configs cs ++ new /\ Forall at_stop new.
  Proof.
    induction 1 as [i s E St|i s g n E N T F IH|i s g d ru k pd E N T F IH]; intros fuel sp c r cs l r' cs' l' C Al I H; (destruct fuel as [|fuel]; [discriminate|]).
    - assert (C' := C). destruct C' as (C1 & C2 & _). cbn [fst snd] in *. cbn [LexerModel.closure] in H. rewrite C1, (state_of_ok a _ _ E) in H. cbn [obindo] in H.
      assert (Ht : st_type s = RuleStopState) by exact St. rewrite Ht in H. unfold closure_stop in H. rewrite C2 in H. cbn in H.
      step H cs1 E1. injection H as <- <- _. destruct (add_total ctx_hash cs c (i, []) I C) as (cs2 & E2 & I2 & _ & new & E3 & E4).
      assert (cs2 = cs1) by congruence. subst cs2. split; [reflexivity|]. split; [exact I2|]. exists new. split; [exact E3|].
      destruct E4 as [->| ->]; constructor; [|constructor]. split; [exact Al|]. rewrite C1. eauto.
    - assert (C' := C). destruct C' as (C1 & C2 & C3 & C4 & C5). cbn [fst snd] in *.
      rewrite (closure_quiet _ _ i s _ _ _ _ (Epsilon g n) E N) in H; [|rewrite T; left; reflexivity | intros X; exact X | exact C1].
      rewrite T, each_one, let_id in H. destruct (target_state i s (Epsilon g n) E ltac:(rewrite T; left; reflexivity)) as (s' & E'). cbn [get_target] in E'.
      unfold closure_trans, get_epsilon_target in H. cbn [get_target] in H. rewrite (state_of_ok a _ _ E') in H. cbn [obindo] in H.
      eapply IH; [| | exact I | exact H]; [|exact Al]. repeat split; cbn; auto. apply (number a FM _ _ E').
    - assert (C' := C). destruct C' as (C1 & C2 & C3 & C4 & C5). cbn [fst snd] in *.
      rewrite (closure_quiet _ _ i s _ _ _ _ (Action g d ru k pd) E N) in H; [|rewrite T; left; reflexivity | intros X; exact X | exact C1].
      rewrite T, each_one, let_id in H. destruct (target_state i s (Action g d ru k pd) E ltac:(rewrite T; left; reflexivity)) as (s' & E'). cbn [get_target] in E'.
      unfold closure_trans, get_epsilon_target in H. cbn [get_target] in H. rewrite (state_of_ok a _ _ E') in H. cbn [obindo] in H. rewrite C2 in H.
      step H r1 Er. destruct r1 as [[c1 cs1] l1]. step Er ou Eo. cbn in Eo. injection Eo as <-. step Er x Ex. injection Er as <- <- <-.
      eapply IH; [| | exact I | exact H]; [|exact Al]. repeat split; cbn; auto. apply (number a FM _ _ E').
  Qed.

  (** ** A delimited rule *)
  Variables (q o e : Z) (se : atn_state) (x nx y ny close : Z) (n : nat) (body : Z) (tb : transition).
  Hypothesis Lo : leads a q o.
  Hypothesis Op : opening a e o.
  Hypothesis Ee : state_at a e = Some se.
  Hypothesis Ng : nongreedy_state se.
  Hypothesis Te : st_trans se = [Epsilon x nx; Epsilon y ny].
  Hypothesis Lx : leads a x close.
  Hypothesis Cl : closing a n close.
  Hypothesis Ly : leads a y body.
  Hypothesis Rb : reads_one a body tb.
  Hypothesis Lb : leads a (get_target tb) e.

  Lemma closing_reads k i : closing a k i -> exists t, reads_one a i t.
  Proof. destruct 1; eauto. Qed.
  Lemma opening_reads i : opening a e i -> exists t, reads_one a i t.
  Proof. destruct 1; eauto. Qed.
  Lemma closure_entry fuel sp p i cs l r' cs' l' : noted p i -> leads a i e -> set_inv cs ->
    closure fuel sp false (cn p i) (false, cs, l) = Val (r', cs', l') ->
    r' = false /\ set_inv cs' /\ exists n1 n2, configs cs' = configs cs ++ n1 ++ n2 /\ (n1 = [] \/ n1 = [cn true close]) /\ (n2 = [] \/ n2 = [cn true body]).
  Proof.
    intros No Le I H. destruct (closure_leads _ _ Le _ _ _ _ _ _ _ H) as (f' & p' & H1 & _ & H3).
    assert (p' = true) by (apply (H3 No); exists se; split; [exact Ee | exact Ng]). subst p'. clear H H3. destruct f' as [|f']; [discriminate|].
    assert (Ns : ~ is_stop se) by (unfold is_stop; unfold nongreedy_state in Ng; destruct (st_type se); try contradiction; discriminate).
    rewrite (closure_quiet _ _ e se _ _ _ _ (Epsilon x nx) Ee Ns) in H1; [|rewrite Te; left; reflexivity | intros X; exact X | reflexivity].
    destruct (target_state e se (Epsilon x nx) Ee ltac:(rewrite Te; left; reflexivity)) as (sx & Ex).
    destruct (target_state e se (Epsilon y ny) Ee ltac:(rewrite Te; right; left; reflexivity)) as (sy & Ey). cbn [get_target] in Ex, Ey.
    rewrite Te in H1. cbn [closure_each] in H1. rewrite (trans_epsilon _ _ _ _ _ _ _ _ _ _ Ex) in H1. step H1 st1 E1. destruct st1 as [[r1 cs1] l1].
    rewrite (trans_epsilon _ _ _ _ _ _ _ _ _ _ Ey), let_id in H1.
    destruct (closing_reads _ _ Cl) as (tc & Rc).
    destruct (closure_to_one _ _ _ _ _ _ _ _ _ _ _ _ Lx Rc I E1) as (-> & I1 & p1 & n1 & P1 & N1 & F1). rewrite (P1 eq_refl) in F1.
    destruct (closure_to_one _ _ _ _ _ _ _ _ _ _ _ _ Ly Rb I1 H1) as (-> & I2 & p2 & n2 & P2 & N2 & F2). rewrite (P2 eq_refl) in F2.
    split; [reflexivity|]. split; [exact I2|]. exists n1, n2. rewrite N2, N1, app_assoc. auto.
  Qed.

  (** the configurations of the rule: one in the opening; those in the closing, the nearest to the end
      first, and the one in the body; or the end *)
  Definition ranked (ir : Z * nat) : Prop := (closing a (snd ir) (fst ir) /\ (snd ir <= n)%nat) \/ (fst ir = body /\ snd ir = S n).
  Definition in_order (irs : list (Z * nat)) : Prop := Forall ranked irs /\ StronglySorted (fun c d => (snd c < snd d)%nat) irs.
  Notation row irs := (map (fun ir : Z * nat => cn true (fst ir)) irs).
  Definition form (cl : list lconfig) : Prop :=
    (exists p i, cl = [cn p i] /\ opening a e i) \/ (exists irs, cl = row irs /\ in_order irs) \/ Forall at_stop cl.
  Notation ours := (filter (fun c : lconfig => c_alt c =? A)).

  Lemma step_one fuel si u p i s t cs l h cs1 l1 : state_at a i = Some s -> reads_one a i t ->
    reach_trans D U a sempred ctx_hash actions_hash fuel si u (cn p i) false (st_trans s) cs l = Val (h, cs1, l1) ->
    (h = false /\ cs1 = cs) \/
    exists p1 l2, noted p1 (get_target t) /\ (p = true -> p1 = true) /\ closure fuel true false (cn p1 (get_target t)) (false, cs, l) = Val (h, cs1, l2).
  Proof.
    intros E (s' & E' & N & T & C) H. assert (s' = s) by congruence. subst s'. rewrite T in H.
    destruct (proj2 (proj2 FM) _ _ E) as (_ & _ & W). destruct (W t ltac:(rewrite T; left; reflexivity)) as (W1 & W2 & W3 & _).
    assert (Nc : is_call t = false) by (destruct t; try reflexivity; contradiction).
    destruct (match_symbol U sempred t u W2 Nc) as (b & Eb & B1 & _). cbn [reach_trans] in H. rewrite Eb in H. cbn [obindo] in H. destruct b.
    - destruct (target_state i s t E ltac:(rewrite T; left; reflexivity)) as (g & Eg). rewrite (state_of_ok a _ _ Eg) in H. cbn [obindo] in H.
      assert (Nu : u <> EOF) by (intros ->; apply W3, B1; reflexivity). apply Z.eqb_neq in Nu. rewrite Nu in H.
      assert (Ec : cloned_with_new_exec (cn p i) g (option_map (fun e0 => fix_offset_before_match e0 (is_index (lx_input U l) - si)) (lt_exec (c_type (cn p i)))) =
                   cn (if p then true else ng g) (get_target t)).
      { unfold cloned_with_new_exec. rewrite (cloned_cn _ _ _ _ Eg). reflexivity. }
      rewrite Ec in H. step H r1 Er. destruct r1 as [[h1 cs2] l2]. right. exists (if p then true else ng g), l2.
      split; [apply noted_clone, Eg|]. split; [intros ->; reflexivity|]. destruct h1; injection H as <- <- _; exact Er.
    - injection H as <- <- _. left. auto.
  Qed.

  Lemma ours_app x1 x2 : ours (x1 ++ x2) = ours x1 ++ ours x2.
  Proof. apply filter_app. Qed.
  Lemma ours_cn p i : ours [cn p i] = [cn p i].
  Proof. cbn. rewrite Z.eqb_refl. reflexivity. Qed.
  Lemma ours_none (cl : list lconfig) : Forall (fun d => c_alt d <> A) cl -> ours cl = [].
  Proof. induction 1 as [|d cl N _ IH]; cbn; [reflexivity|]. apply Z.eqb_neq in N. rewrite N. exact IH. Qed.
  Lemma ours_all (cl : list lconfig) : Forall (fun d => c_alt d = A) cl -> ours cl = cl.
  Proof. induction 1 as [|d cl N _ IH]; cbn; [reflexivity|]. apply Z.eqb_eq in N. rewrite N, IH. reflexivity. Qed.
  Lemma row_snoc irs i r : row irs ++ [cn true i] = row (irs ++ [(i, r)]).
  Proof. rewrite map_app. reflexivity. Qed.
  Lemma order_snoc irs i r : in_order irs -> ranked (i, r) -> Forall (fun d => (snd d < r)%nat) irs -> in_order (irs ++ [(i, r)]).
  Proof.
    intros (F & S) R B. split; [apply Forall_app; split; [exact F | constructor; [exact R | constructor]]|].
    clear F R. induction S as [|d irs S IH Fd]; cbn; [constructor; constructor|]. inversion B; subst. constructor; [auto|].
    apply Forall_app. split; [exact Fd|]. constructor; [assumption | constructor].
  Qed.

  (** where the loop over the configurations stands *)
  Definition stage (sk : Z) (cs cl : list lconfig) : Prop :=
    (sk <> A /\ ours cs = [] /\ exists p i, ours cl = [cn p i] /\ opening a e i) \/
    (sk <> A /\ exists irs jrs, ours cl = row irs /\ in_order irs /\ ours cs = row jrs /\ in_order jrs /\
       Forall (fun d => Forall (fun d' => (snd d + 1 < snd d')%nat) irs) jrs) \/
    (form (ours cs) /\ (Forall at_stop (ours cl) \/ (sk = A /\ Forall (fun c => lt_passed (c_type c) = true) (ours cl)))).
  Lemma stage_end sk cs : stage sk cs [] -> form (ours cs).
  Proof.
    intros [(_ & _ & p & i & X & _)|[(_ & irs & jrs & _ & _ & E & O & _)|(F & _)]]; [discriminate | | exact F].
    right. left. eauto.
  Qed.
  Lemma row_passed irs : Forall (fun c : lconfig => lt_passed (c_type c) = true) (row irs).
  Proof. apply Forall_map, Forall_forall. reflexivity. Qed.

  Lemma stage_step fuel si u c cl s sk cs l h cs1 l1 : state_at a (c_state c) = Some s -> set_inv cs -> c_alt c = A ->
    (c_alt c =? sk) && lt_passed (c_type c) = false ->
    stage sk (configs cs) (c :: cl) -> placed a c -> (A = sk -> accepted a (configs cs) A) ->
    reach_trans D U a sempred ctx_hash actions_hash fuel si u c (c_alt c =? sk) (st_trans s) cs l = Val (h, cs1, l1) ->
    stage (if h then c_alt c else sk) (configs cs1) cl.
  Proof.
    intros E I Al B St Pl Ac H. assert (Eo : ours (c :: cl) = c :: ours cl) by (cbn [filter]; rewrite Al, Z.eqb_refl; reflexivity).
    destruct St as [(Nk & Cs & p & i & El & Oi)|[(Nk & irs & jrs & El & Oi & Ej & Oj & Lt)|(F & Rest)]].
    - rewrite Eo in El. injection El as -> El. rewrite Al in *. replace (A =? sk) with false in H by lia. cbn [c_state cn] in E.
      destruct (opening_reads _ Oi) as (t & Rt). right. right. rewrite El. split; [|left; constructor].
      destruct (step_one _ _ _ _ _ _ _ _ _ _ _ _ E Rt H) as [(-> & ->)|(p1 & l2 & No & _ & H')].
      { rewrite Cs. right. right. constructor. }
      destruct Oi as [i t' Rt' Le|i t' j Rt' Le Oj].
      + assert (t' = t) by (destruct Rt as (s1 & E1 & _ & T1 & _), Rt' as (s2 & E2 & _ & T2 & _); congruence). subst t'.
        destruct (closure_entry _ _ _ _ _ _ _ _ _ No Le I H') as (_ & _ & n1 & n2 & Ec & N1 & N2). rewrite Ec, !ours_app, Cs. cbn [app]. right. left.
        assert (Rc : ranked (close, n)) by (left; split; [exact Cl | cbn; lia]). assert (Rd : ranked (body, S n)) by (right; auto).
        destruct N1 as [->| ->], N2 as [->| ->]; rewrite ?ours_cn; cbn [filter app].
        * exists []. split; [reflexivity | split; constructor].
        * exists [(body, S n)]. split; [reflexivity | split; [constructor; [exact Rd | constructor] | repeat constructor]].
        * exists [(close, n)]. split; [reflexivity | split; [constructor; [exact Rc | constructor] | repeat constructor]].
        * exists [(close, n); (body, S n)]. split; [reflexivity | split; [constructor; [exact Rc | constructor; [exact Rd | constructor]] | repeat constructor]].
      + assert (t' = t) by (destruct Rt as (s1 & E1 & _ & T1 & _), Rt' as (s2 & E2 & _ & T2 & _); congruence). subst t'.
        destruct (opening_reads _ Oj) as (tj & Rj).
        destruct (closure_to_one _ _ _ _ _ _ _ _ _ _ _ _ Le Rj I H') as (_ & _ & p' & new & _ & Ec & N1). rewrite Ec, ours_app, Cs. cbn [app].
        destruct N1 as [->| ->]; rewrite ?ours_cn; cbn [filter]; [right; right; constructor | left; eauto].
    - rewrite Eo in El. destruct irs as [|(i, r) irs]; [discriminate|]. injection El as -> El. rewrite Al in *. replace (A =? sk) with false in H by lia. cbn [c_state cn fst] in E.
      destruct Oi as (Fi & Si). inversion Fi as [|? ? Ri Fi']; subst. inversion Si as [|? ? Si' Li]; subst. cbn [snd] in Li.
      assert (Bj : Forall (fun d => (snd d + 1 < r)%nat) jrs). { eapply Forall_impl; [|exact Lt]. intros d Hd. inversion Hd; subst. assumption. }
      assert (Tl : Forall (fun d => Forall (fun d' => (snd d + 1 < snd d')%nat) irs) jrs). { eapply Forall_impl; [|exact Lt]. intros d Hd. inversion Hd; subst. assumption. }
      assert (Rt : exists t, reads_one a i t). { destruct Ri as [(Ri & _)|(Ri & _)]; cbn [fst snd] in Ri; [eapply closing_reads; eauto | subst i; eauto]. }
      destruct Rt as (t & Rt). destruct (step_one _ _ _ _ _ _ _ _ _ _ _ _ E Rt H) as [(-> & ->)|(p1 & l2 & No & Pt & H')].
      { right. left. split; [exact Nk|]. exists irs, jrs. split; [exact El|]. split; [split; assumption|]. auto. }
      rewrite (Pt eq_refl) in *. destruct Ri as [(Ri & Rn)|(Ri & Rn)]; cbn [fst snd] in Ri, Rn.
      + destruct Ri as [i t' Rt' Fin|r i t' j Rt' Le Cj].
        * assert (t' = t) by (destruct Rt as (s1 & E1 & _ & T1 & _), Rt' as (s2 & E2 & _ & T2 & _); congruence). subst t'.
          destruct (closure_finishes _ Fin _ _ _ _ _ _ _ _ _ (cn_cfg _ _) eq_refl I H') as (-> & _ & new & Ec & As).
          assert (jrs = []) by (destruct jrs as [|d jrs]; [reflexivity | inversion Bj; lia]). subst jrs.
          right. right. rewrite Ec, ours_app, Ej. cbn [map app]. rewrite ours_all by (eapply Forall_impl; [|exact As]; intros d (X & _); exact X).
          split; [right; right; exact As|]. right. split; [reflexivity|]. rewrite El. apply row_passed.
        * assert (t' = t) by (destruct Rt as (s1 & E1 & _ & T1 & _), Rt' as (s2 & E2 & _ & T2 & _); congruence). subst t'.
          destruct (closing_reads _ _ Cj) as (tj & Rj).
          destruct (closure_to_one _ _ _ _ _ _ _ _ _ _ _ _ Le Rj I H') as (-> & _ & p' & new & Pp & Ec & N1). rewrite (Pp eq_refl) in N1.
          right. left. split; [exact Nk|]. destruct N1 as [->| ->].
          { exists irs, jrs. rewrite Ec, app_nil_r. split; [exact El|]. split; [split; assumption|]. auto. }
          exists irs, (jrs ++ [(j, r)]). split; [exact El|]. split; [split; assumption|]. split; [rewrite Ec, ours_app, ours_cn, Ej; apply row_snoc|].
          split; [apply order_snoc; [exact Oj | left; cbn; split; [exact Cj | lia] | eapply Forall_impl; [|exact Bj]; cbn; intros; lia]|].
          apply Forall_app. split; [exact Tl|]. constructor; [|constructor]. cbn [snd]. eapply Forall_impl; [|exact Li]. cbn. intros; lia.
      + subst i r. assert (irs = []).
        { destruct irs as [|d irs]; [reflexivity|]. inversion Li; subst. inversion Fi' as [|? ? [(_ & Y)|(_ & Y)]]; subst; lia. }
        subst irs. assert (t = tb) by (destruct Rt as (s1 & E1 & _ & T1 & _), Rb as (s2 & E2 & _ & T2 & _); congruence). subst t.
        destruct (closure_entry _ _ _ _ _ _ _ _ _ No Lb I H') as (-> & _ & n1 & n2 & Ec & N1 & N2).
        assert (Rc : ranked (close, n)) by (left; split; [exact Cl | cbn; lia]). assert (Rd : ranked (body, S n)) by (right; auto).
        right. right. rewrite El. split; [|left; constructor]. right. left. rewrite Ec, !ours_app, Ej.
        assert (O1 : in_order (jrs ++ [(close, n)])) by (apply order_snoc; [exact Oj | exact Rc | eapply Forall_impl; [|exact Bj]; cbn; intros; lia]).
        assert (O2 : in_order (jrs ++ [(body, S n)])) by (apply order_snoc; [exact Oj | exact Rd | eapply Forall_impl; [|exact Bj]; cbn; intros; lia]).
        assert (O3 : in_order ((jrs ++ [(close, n)]) ++ [(body, S n)])).
        { apply order_snoc; [exact O1 | exact Rd |]. apply Forall_app. split; [eapply Forall_impl; [|exact Bj]; cbn; intros; lia | repeat constructor]. }
        destruct N1 as [->| ->], N2 as [->| ->]; rewrite ?ours_cn; cbn [filter app].
        * exists jrs. rewrite !app_nil_r. auto.
        * exists (jrs ++ [(body, S n)]). split; [apply row_snoc | exact O2].
        * exists (jrs ++ [(close, n)]). split; [apply row_snoc | exact O1].
        * exists ((jrs ++ [(close, n)]) ++ [(body, S n)]). split; [|exact O3]. rewrite <- !row_snoc, <- app_assoc. reflexivity.
    - rewrite Eo in Rest. destruct Rest as [Rest|(-> & Rest)].
      + assert (Ac' : (c_alt c =? sk) = true -> accepted a (configs cs) (c_alt c)) by (intros X; rewrite Al in *; apply Ac; lia).
        assert (As := Forall_inv Rest). assert (Rest' := Forall_inv_tail Rest).
        destruct (reach_trans_ok D U a sempred ctx_hash actions_hash FM _ _ _ _ _ _ _ _ _ _ _ Pl E I Ac' H) as (_ & _ & new & Ec & Fs & _).
        assert (new = []).
        { destruct new as [|d new]; [reflexivity|]. inversion Fs as [|? ? (_ & p & p' & q' & xs & C & Cs & _) _]; subst. destruct As as (_ & s' & Es & Sp).
          destruct C as (C & _). inversion Cs as [i0 st0 s0' t0 c0 E0 N0 I0 S0]; subst. cbn in C. rewrite C in Es. rewrite Es in E0. injection E0 as <-. contradiction. }
        subst new. rewrite app_nil_r in Ec. right. right. rewrite Ec. split; [exact F | left; exact Rest'].
      + inversion Rest as [|? ? P Rest']; subst. rewrite P, Al, Z.eqb_refl in B. discriminate.
  Qed.

  Lemma reach_form fuel si u cl : forall sk cs l cs' l', Forall (placed a) cl -> set_inv cs -> Forall (fun c => 0 < c_alt c) cl ->
    (0 < sk -> accepted a (configs cs) sk) -> StronglySorted (fun c d : lconfig => c_alt c <= c_alt d) cl -> Forall (fun c => sk <= c_alt c) cl ->
    stage sk (configs cs) cl ->
    reach_loop D U a sempred ctx_hash actions_hash fuel si u cl sk cs l = Val (cs', l') -> form (ours (configs cs')).
  Proof.
    induction cl as [|c cl IH]; intros sk cs l cs' l' P I G Sk So Lk St H; cbn [reach_loop] in H.
    - injection H as <- _. eapply stage_end; eauto.
    - inversion P as [|? ? Pc Pcl]; subst. inversion G as [|? ? Gc Gcl]; subst. inversion So as [|? ? Sc Fc]; subst. inversion Lk as [|? ? Lc Lcl]; subst.
      destruct ((c_alt c =? sk) && lt_passed (c_type c)) eqn:B.
      + eapply IH; [exact Pcl | exact I | exact Gcl | exact Sk | exact Sc | exact Lcl | | exact H].
        apply andb_true_iff in B. destruct B as (B1 & _). apply Z.eqb_eq in B1. destruct (Z.eqb_spec (c_alt c) A) as [Al|Al].
        * assert (Eo : ours (c :: cl) = c :: ours cl) by (cbn [filter]; rewrite Al, Z.eqb_refl; reflexivity).
          destruct St as [(X & _)|[(X & _)|(F & R)]]; [congruence | congruence|]. right. right. rewrite Eo in R. split; [exact F|].
          destruct R as [R|(-> & R)]; inversion R; subst; [left; assumption | right; auto].
        * assert (Eo : ours (c :: cl) = ours cl) by (cbn [filter]; apply Z.eqb_neq in Al; rewrite Al; reflexivity).
          unfold stage in *. rewrite Eo in St. exact St.
      + step H s Es. apply state_of_val in Es. step H hc Eh. destruct hc as [[hit cs1] l1].
        assert (Ac : (c_alt c =? sk) = true -> accepted a (configs cs) (c_alt c)) by (intros X; apply Z.eqb_eq in X; rewrite X; apply Sk; lia).
        destruct (reach_trans_ok D U a sempred ctx_hash actions_hash FM _ _ _ _ _ _ _ _ _ _ _ Pc Es I Ac Eh) as (-> & I1 & new & N1 & N2 & N3 & N4 & N5).
        assert (Sk1 : 0 < (if hit then c_alt c else sk) -> accepted a (configs cs1) (if hit then c_alt c else sk)).
        { destruct hit; [auto|]. intros X. eapply accepted_mono; [exact N1 | auto]. }
        eapply IH; [exact Pcl | exact I1 | exact Gcl | exact Sk1 | exact Sc | | | exact H].
        { destruct hit; [exact Fc | exact Lcl]. }
        destruct (Z.eqb_spec (c_alt c) A) as [Al|Al].
        * eapply (stage_step fuel si u c cl s); [exact Es | exact I | exact Al | exact B | exact St | exact Pc | | exact Eh].
          intros X. rewrite <- Al. apply Ac. lia.
        * assert (Eo : ours (c :: cl) = ours cl) by (cbn [filter]; apply Z.eqb_neq in Al; rewrite Al; reflexivity).
          assert (En : ours (configs cs1) = ours (configs cs)).
          { rewrite N1, ours_app, (ours_none new), app_nil_r; [reflexivity|]. eapply Forall_impl; [|exact N2]. intros d (X & _). congruence. }
          unfold stage in *. rewrite Eo in St. rewrite En.
          destruct St as [(X & Y)|[(X & Y)|(F & R)]].
          { left. split; [destruct hit; auto | exact Y]. }
          { right. left. split; [destruct hit; auto | exact Y]. }
          right. right. split; [exact F|]. destruct R as [R|(X & R)]; [left; exact R|]. destruct hit; [|right; auto]. left.
          rewrite (ours_none cl); [constructor|]. eapply Forall_impl; [|exact Fc]. cbn. intros d Hd. lia.
  Qed.

  Notation start_cfg := LexMatchProofs.start_cfg.
  Lemma start_form fuel ts : forall i cs l cs' l', Forall (fun t => exists_state a (get_target t)) ts -> set_inv cs ->
    (forall j t, nth_error ts j = Some t -> i + 1 + Z.of_nat j = A -> get_target t = q) ->
    (A <= i /\ form (ours (configs cs)) \/ i < A /\ ours (configs cs) = []) ->
    start_loop D U a sempred ctx_hash actions_hash fuel ts i cs l = Val (cs', l') -> form (ours (configs cs')).
  Proof.
    induction ts as [|t ts IH]; intros i cs l cs' l' F I Q B H; cbn [start_loop] in H.
    - injection H as <- _. destruct B as [(_ & B)|(_ & B)]; [exact B|]. rewrite B. right. right. constructor.
    - inversion F as [|? ? Ft Fts]; subst. step H r1 Er. destruct r1 as [[h cs1] l1].
      assert (Q' : forall j t', nth_error ts j = Some t' -> i + 1 + 1 + Z.of_nat j = A -> get_target t' = q).
      { intros j t' Hj Ej. apply (Q (S j) t' Hj). lia. }
      assert (C : cfg (new_lexer_atnconfig6 (get_target t) (i + 1) EMPTY) (get_target t, [])) by (repeat split).
      assert (So : sound_pos a (get_target t, [])) by (split; cbn; auto).
      destruct (closure_ok D U a sempred ctx_hash actions_hash FM _ _ _ _ _ _ _ _ _ _ C So I Er) as (_ & I1 & new & Ec & Fr & _).
      eapply IH; [exact Fts | exact I1 | exact Q' | | exact H]. destruct (Z.eq_dec (i + 1) A) as [Ea|Na].
      + left. split; [lia|]. destruct B as [(B & _)|(_ & B)]; [lia|]. assert (Eq := Q 0%nat t eq_refl ltac:(lia)). rewrite Eq in Er.
        assert (Er' : closure fuel false false (cn false q) (false, cs, l) = Val (h, cs1, l1)) by (unfold cn; rewrite <- Ea; exact Er).
        destruct (opening_reads _ Op) as (tj & Rj).
        destruct (closure_to_one _ _ _ _ _ _ _ _ _ _ _ _ Lo Rj I Er') as (_ & _ & p' & new' & _ & Ec' & N1). rewrite Ec', ours_app, B. cbn [app].
        destruct N1 as [->| ->]; rewrite ?ours_cn; cbn [filter]; [right; right; constructor | left; eauto].
      + assert (En : ours (configs cs1) = ours (configs cs)).
        { rewrite Ec, ours_app, (ours_none new), app_nil_r; [reflexivity|]. eapply Forall_impl; [|exact Fr]. intros d (X & _). cbn in X. congruence. }
        rewrite En. destruct B as [(B & B')|(B & B')]; [left | right]; (split; [lia | exact B']).
  Qed.
  Lemma stage_start cl : 0 < A -> form (ours cl) -> stage 0 [] cl.
  Proof.
    intros L [(p & i & E & O)|[(irs & E & O)|F]].
    - left. split; [lia|]. split; [reflexivity|]. eauto.
    - right. left. split; [lia|]. exists irs, []. split; [exact E|]. split; [exact O|]. split; [reflexivity|]. split; [split; constructor | constructor].
    - right. right. split; [right; right; constructor | left; exact F].
  Qed.
  (** where the end has been reached, there is nothing else *)
  Lemma form_ends cl c d : form (ours cl) -> In c cl -> In d cl -> at_stop c -> c_alt d = A -> at_stop d.
  Proof.
    intros F Ic Id (Ac & s & Es & St) Ad. assert (Oc : In c (ours cl)) by (apply filter_In; split; [exact Ic | apply Z.eqb_eq, Ac]).
    assert (Od : In d (ours cl)) by (apply filter_In; split; [exact Id | apply Z.eqb_eq, Ad]).
    assert (Ns : forall i t, reads_one a i t -> i = c_state c -> False).
    { intros i t (s' & E' & N' & _) ->. congruence. }
    destruct F as [(p & i & E & O)|[(irs & E & (O & _))|F]].
    - rewrite E in Oc. destruct Oc as [<-|[]]. destruct (opening_reads _ O) as (t & Rt). destruct (Ns _ _ Rt eq_refl).
    - rewrite E in Oc. apply in_map_iff in Oc. destruct Oc as (ir & <- & Hi). rewrite Forall_forall in O.
      destruct (O ir Hi) as [(X & _)|(X & _)]; [destruct (closing_reads _ _ X) as (t & Rt); destruct (Ns _ _ Rt eq_refl)|].
      destruct (Ns _ _ Rb). cbn. congruence.
    - rewrite Forall_forall in F. apply F, Od.
  Qed.
End Order.

Section Shortest.
  Variable D : input_data.
  Variable U : Type.
  Variable a : atn.
  Variable sempred : Z -> Z -> lexer U -> bool * lexer U.
  Variable ctx_hash : pctx -> Z.
  Variable actions_hash : list lexer_action -> Z.
  Hypothesis FM : lexer_formed a.
  Notation list_good := (list_good D U a sempred ctx_hash actions_hash).
  Notation built_in := (built_in D U a sempred ctx_hash actions_hash).
  Notation covers := (LexCacheProofs.covers a).
  Notation matched_before := (LexCacheProofs.matched_before a).

  Lemma begins_at m k q ms s j t : rule_begins a m k q -> item (mode_to_start_state a) m = Some ms -> state_at a ms = Some s ->
    nth_error (st_trans s) j = Some t -> 0 + 1 + Z.of_nat j = Z.of_nat k + 1 -> get_target t = q.
  Proof.
    intros (ms' & s' & t' & Em & Es & Et & ->) Em' Es' Ej L. assert (ms' = ms) by congruence. subst ms'. assert (s' = s) by congruence. subst s'.
    assert (j = k) by lia. subst j. congruence.
  Qed.
  (** the configurations of a delimited rule, in all lists that are built *)
  Lemma built_ends m k cl : delimited a m k -> built_in m cl -> forall c d, In c cl -> In d cl -> at_stop a (Z.of_nat k + 1) c -> c_alt d = Z.of_nat k + 1 ->
    at_stop a (Z.of_nat k + 1) d.
  Proof.
    intros (q & o & e & se & x & nx & y & ny & close & n & body & tb & Bq & Lo & Op & Ee & Ng & Te & Lx & Cl & Ly & Rb & Lb) Bu.
    assert (G : list_good m cl /\ form a (Z.of_nat k + 1) e n body (filter (fun c => c_alt c =? Z.of_nat k + 1) cl)).
    { induction Bu as [fuel ms s l cs l' Em Es H|fuel si cl t l cs l' Bu (LG & F) H].
      - destruct (start_good D U a sempred ctx_hash actions_hash FM _ _ _ _ _ _ _ Em Es H) as (_ & _ & LG & _). split; [exact LG|].
        unfold compute_start_state in H.
        eapply (start_form D U a sempred ctx_hash actions_hash FM (Z.of_nat k + 1) q o e n body Lo Op _ _ 0); [| | | | exact H].
        + apply Forall_forall. intros t Ht. destruct (proj2 (proj2 FM) _ _ Es) as (_ & _ & W). apply W in Ht. apply Ht.
        + apply empty_inv.
        + intros j t Hj Ej. eapply begins_at; eauto.
        + right. split; [lia | reflexivity].
      - destruct (reach_good D U a sempred ctx_hash actions_hash FM _ _ _ _ _ _ _ _ LG H) as (_ & _ & LG' & _). split; [exact LG'|].
        destruct LG as (Ar & So & _). unfold get_reachable_config_set in H.
        assert (Po : Forall (fun c => 0 < c_alt c) cl) by (eapply Forall_impl; [|exact Ar]; intros c (_ & k1 & q1 & w & xs & p & _ & E & _); lia).
        eapply (reach_form D U a sempred ctx_hash actions_hash FM (Z.of_nat k + 1) e se x nx y ny close n body tb Ee Ng Te Lx Cl Ly Rb Lb); [| | exact Po | | exact So | | | exact H].
        + eapply Forall_impl; [|exact Ar]. intros c (P & _). exact P.
        + apply empty_inv.
        + intros X. lia.
        + eapply Forall_impl; [|exact Po]. cbn. intros; lia.
        + apply (stage_start U a sempred); [lia | exact F]. }
    destruct G as (_ & F). intros c d Ic Id Sc Ad. eapply form_ends; [exact Rb | exact F | exact Ic | exact Id | exact Sc | exact Ad].
  Qed.

  (** [covers], and a delimited rule that has matched is gone *)
  Definition meets (m : Z) (w : list Z) (cl : list lconfig) : Prop :=
    covers m w cl /\ forall k, delimited a m k -> matched_before m w (Z.of_nat k + 1) -> forall c, In c cl -> c_alt c <> Z.of_nat k + 1.
  Lemma meets_start m cl : covers m [] cl -> meets m [] cl.
  Proof. intros C. split; [exact C|]. intros k _ (k' & w1 & c & w2 & _ & E & _). destruct w1; discriminate. Qed.
  Lemma meets_edge m w t cl cl' : list_good m cl -> ordinary_char t -> meets m w cl -> edge_ok a m t cl cl' -> meets m (w ++ [t]) cl'.
  Proof.
    intros LG O (Co & Sh) Eo. split; [eapply covers_edge; eauto|]. intros k De Mb d Hd Ad.
    destruct (proj1 Eo d Hd) as (c & p & p' & q & xs & Ic & Cp & St & _ & _ & _ & Ac). rewrite Ad in Ac. symmetry in Ac.
    assert (Gone : ~ matched_before m w (Z.of_nat k + 1)) by (intros X; exact (Sh k De X c Ic Ac)).
    destruct Mb as (k' & w1 & c1 & w2 & Ek & Ew & M). assert (k' = k) by lia. subst k'.
    destruct (exists_last (l := c1 :: w2) ltac:(discriminate)) as (w3 & t' & E3). rewrite E3, app_assoc in Ew. apply app_inj_tail in Ew. destruct Ew as (Ew & <-).
    destruct w3 as [|c3 w3]; [|apply Gone; exists k, w1, c3, w3; auto]. rewrite app_nil_r in Ew. subst w1.
    apply matches_after in M. destruct M as (i & s & Af & Es & Sp). assert (Acc : accepted a cl (Z.of_nat k + 1)).
    { destruct (proj2 Co _ _ Af) as [X|(_ & [X|X])]; [exists i, s; auto | exact X | contradiction]. }
    destruct Acc as (i1 & s1 & (c2 & I2 & C2 & A2) & E1 & S1).
    assert (As : at_stop a (Z.of_nat k + 1) c2) by (split; [exact A2|]; destruct C2 as (C2 & _); cbn in C2; rewrite C2; eauto).
    destruct (built_ends m k cl De (proj2 (proj2 (proj2 LG))) c2 c I2 Ic As Ac) as (_ & s2 & E2 & S2).
    destruct Cp as (Cp & _). inversion St as [i0 st0 s0' t0 c0 E0 N0 I0 S0]; subst. cbn in Cp. rewrite Cp in E2. congruence.
  Qed.
End Shortest.
