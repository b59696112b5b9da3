(** Proofs about lexer matching, continued: the DFA cache and the matching loop (C33, C34, C35). *)
From Coq Require Import ZArith List Sorted Bool Lia.
From Coq Require Import ZifyBool ZifyNat.
From Verif Require Import Outcome CharStreamModel CharStreamSpec CharStreamProofs PredContextModel SemContextModel
  ConfigSetModel ConfigSetProofs DfaModel DfaProofs AtnModel AtnSpec AtnProofs Ll1Spec LexerModel LexerSpec LexerProofs
  LexMatchSpec LexMatchProofs.
From Verif Require FactoryModel.
Import ListNotations.
Local Open Scope Z_scope.
Local Open Scope outcome_scope.

Section Cache.
  Variable D : input_data.
  Variable U : Type.
  Variable a : atn.
  Variable sempred : Z -> Z -> lexer U -> bool * lexer U.
  Variable ctx_hash : pctx -> Z.
  Variable actions_hash : list lexer_action -> Z.
  Variable configs_hash : list (config hashed) -> Z.
  Hypothesis FM : lexer_formed a.
  Hypothesis RA : rules_apart a.
  Hypothesis NC : no_collisions D U a sempred ctx_hash actions_hash configs_hash.
  Notation lexer := (lexer U).
  Notation present := (present) (only parsing).
  Notation built := (built D U a sempred ctx_hash actions_hash).

  (** ** Runs *)
  Lemma run_qr p w xs q ys r : run a p w xs q -> qr a q ys r -> run a p w (xs ++ ys) r.
  Proof.
    intros R Q. revert xs R. induction Q as [q|q ys q' zs r S Q IH]; intros xs R; [rewrite app_nil_r; exact R|].
    rewrite app_assoc. apply IH. econstructor; eauto.
  Qed.
  Lemma run_last p w xs r : run a p w xs r ->
    (w = [] /\ qr a p xs r) \/
    exists w' c ys zs q q', w = w' ++ [c] /\ xs = ys ++ zs /\ run a p w' ys q /\ char_step a q c q' /\ qr a q' zs r.
  Proof.
    induction 1 as [|w xs q ys r R IH S|w xs q c r R IH S].
    - left. split; [reflexivity | constructor].
    - destruct IH as [(-> & Q)|(w' & c & us & vs & q1 & q2 & -> & -> & R1 & C & Q)].
      + left. split; [reflexivity|]. eapply qr_snoc; eauto.
      + right. exists w', c, us, (vs ++ ys), q1, q2. repeat (split; auto). { rewrite app_assoc. reflexivity. } eapply qr_snoc; eauto.
    - right. exists w, c, xs, [], q, r. repeat (split; auto). { rewrite app_nil_r. reflexivity. } constructor.
  Qed.
  Lemma run_prefix p u v : forall xs r, run a p (u ++ v) xs r -> exists ys q, run a p u ys q.
  Proof.
    induction v as [|c v IH] using rev_ind; intros xs r R; [rewrite app_nil_r in R; eauto|].
    rewrite app_assoc in R. apply run_last in R. destruct R as [(E & _)|(w' & c' & ys & zs & q & q' & E & _ & R & _)].
    - apply app_eq_nil in E. destruct E as (_ & E). discriminate.
    - apply app_inj_tail in E. destruct E as (<- & _). eapply IH; eauto.
  Qed.

  (** positions reached, by the rule with number [alt], after reading a text *)
  Definition after (m : Z) (w : list Z) (alt : Z) (p : position) : Prop :=
    exists k q xs, rule_begins a m k q /\ alt = Z.of_nat k + 1 /\ run a (q, []) w xs p /\ kept a p.

  Lemma char_kept p c q : char_step a p c q -> kept a p.
  Proof.
    intros H. destruct H as [i st s t c E N I S]. exists s. split; [exact E|]. right. split; [exact N|].
    destruct (proj2 (proj2 FM) i s E) as (_ & Sh & _). destruct Sh as [(X & _)|[(_ & _ & X)|(_ & X & _)]]; auto; try contradiction.
    exfalso. apply (X t I). destruct t; cbn in *; auto.
  Qed.
  Lemma after_snoc m w c alt q : after m (w ++ [c]) alt q <->
    exists p p' xs, after m w alt p /\ char_step a p c p' /\ qr a p' xs q /\ kept a q.
  Proof.
    split.
    - intros (k & b & xs & B & -> & R & K). apply run_last in R.
      destruct R as [(E & _)|(w' & c' & ys & zs & p & p' & E & _ & R & C & Q)]; [apply app_eq_nil in E; destruct E; discriminate|].
      apply app_inj_tail in E. destruct E as (<- & <-). exists p, p', zs. split; [|auto]. exists k, b, ys. split; [exact B|].
      split; [reflexivity|]. split; [exact R|]. eapply char_kept; eauto.
    - intros (p & p' & xs & (k & b & ys & B & -> & R & K) & C & Q & K'). exists k, b, (ys ++ xs).
      split; [exact B|]. split; [reflexivity|]. split; [|exact K']. eapply run_qr; [|exact Q]. econstructor; eauto.
  Qed.
  Lemma matches_after m k w : rule_matches a m k w <->
    exists i s, after m w (Z.of_nat k + 1) (i, []) /\ state_at a i = Some s /\ is_stop s.
  Proof.
    split.
    - intros (xs & q & i & s & B & R & E & S). exists i, s. split; [|auto]. exists k, q, xs. repeat (split; auto). exists s. auto.
    - intros (i & s & (k' & q & xs & B & E' & R & K) & E & S). assert (k' = k) by (clear - E'; lia). subst k'. exists xs, q, i, s. auto.
  Qed.

  (** ** Configuration lists *)
  Notation sorted := (StronglySorted (fun c d : lconfig => c_alt c <= c_alt d)).
  Definition arises (m : Z) (c : lconfig) : Prop :=
    placed a c /\ exists k q w xs p, rule_begins a m k q /\ c_alt c = Z.of_nat k + 1 /\ run a (q, []) w xs p /\ cfg c p /\ acts c = map bare xs.
  (** the rule with number [alt] has non-greedy decisions *)
  Definition lazy (m alt : Z) : Prop := forall k, alt = Z.of_nat k + 1 -> ~ greedy_rule a m k.
  (** it matches less than [w] *)
  Definition matched_before (m : Z) (w : list Z) (alt : Z) : Prop :=
    exists k w1 c w2, alt = Z.of_nat k + 1 /\ w = w1 ++ c :: w2 /\ rule_matches a m k w1.
  (** what is not there belongs to a rule with non-greedy decisions whose end is, or was, reached *)
  Definition covers (m : Z) (w : list Z) (cl : list lconfig) : Prop :=
    (forall d, In d cl -> exists p, cfg d p /\ after m w (c_alt d) p) /\
    (forall alt p, after m w alt p -> present cl alt p \/ (lazy m alt /\ (accepted a cl alt \/ matched_before m w alt))).
  Definition edge_ok (m : Z) (t : Z) (cl cl' : list lconfig) : Prop :=
    (forall d, In d cl' -> exists c p p' q xs, In c cl /\ cfg c p /\ char_step a p t p' /\ qr a p' xs q /\ kept a q /\ cfg d q /\ c_alt d = c_alt c) /\
    (ordinary_char t -> forall c p p' q xs, In c cl -> cfg c p -> char_step a p t p' -> qr a p' xs q -> kept a q ->
       present cl' (c_alt c) q \/ (lazy m (c_alt c) /\ accepted a cl' (c_alt c))).

  Lemma greedy_never m k : greedy a -> greedy_rule a m k.
  Proof.
    intros G q w xs p _ _ (s & E & N). specialize (G _ _ E). unfold nongreedy_state in N. destruct (st_type s); try contradiction. congruence.
  Qed.
  Lemma after_alt m w alt p : after m w alt p -> exists k, alt = Z.of_nat k + 1.
  Proof. intros (k & q & xs & _ & E & _). eauto. Qed.
  Lemma covers_all m w cl : covers m w cl -> greedy a -> forall alt p, after m w alt p -> present cl alt p.
  Proof.
    intros (_ & C) G alt p A. destruct (C _ _ A) as [P|(L & _)]; [exact P|]. destruct (after_alt _ _ _ _ A) as (k & E).
    exfalso. apply (L k E). apply greedy_never, G.
  Qed.
  Lemma accepted_matches m w cl alt : (forall d, In d cl -> exists p, cfg d p /\ after m w (c_alt d) p) -> accepted a cl alt ->
    exists k, alt = Z.of_nat k + 1 /\ rule_matches a m k w.
  Proof.
    intros S (i & s & (d & I & C & <-) & E & St). destruct (S d I) as (p & C' & A). rewrite (cfg_same _ _ _ C' C) in A.
    destruct (after_alt _ _ _ _ A) as (k & Ek). exists k. split; [exact Ek|]. apply matches_after. rewrite <- Ek. eauto.
  Qed.

  Lemma covers_edge m w t cl cl' : ordinary_char t -> covers m w cl -> edge_ok m t cl cl' -> covers m (w ++ [t]) cl'.
  Proof.
    intros O (S & C) (S' & C'). split.
    - intros d Hd. destruct (S' d Hd) as (c & p & p' & q & xs & Hc & Cp & St & Q & K & Cd & A). exists q. split; [exact Cd|].
      apply after_snoc. exists p, p', xs. split; [|auto]. destruct (S c Hc) as (p0 & Cp0 & Af). rewrite (cfg_same _ _ _ Cp Cp0), A. exact Af.
    - intros alt q H. apply after_snoc in H. destruct H as (p & p' & xs & Af & St & Q & K).
      destruct (C alt p Af) as [(c & Hc & Cp & <-)|(L & [X|(k & w1 & x & w2 & Ek & -> & M)])].
      + destruct (C' O c p p' q xs Hc Cp St Q K) as [X|(L & X)]; [left; exact X | right; split; [exact L | left; exact X]].
      + right. split; [exact L|]. right. destruct (accepted_matches _ _ _ _ S X) as (k & Ek & M). exists k, w, t, []. auto.
      + right. split; [exact L|]. right. exists k, w1, x, (w2 ++ [t]). rewrite <- app_assoc. auto.
  Qed.

  (** two lists that look the same *)
  Definition looks (x y : list lconfig) : Prop := map hash_view x = map hash_view y.
  Lemma looks_cfg c d p : hash_view c = hash_view d -> cfg c p -> (exists q, cfg d q) -> cfg d p /\ c_alt d = c_alt c /\ lt_passed (c_type d) = lt_passed (c_type c).
  Proof.
    intros E C (q & Q). unfold hash_view in E. inversion E. split; [|split; congruence].
    destruct C as (C1 & C2 & C3 & C4 & C5), Q as (Q1 & Q2 & Q3 & Q4 & Q5). repeat split; congruence.
  Qed.
  Lemma looks_in x y : looks x y -> forall c, In c x -> exists d, In d y /\ hash_view c = hash_view d.
  Proof.
    intros L c I. apply (in_map hash_view) in I. rewrite L in I. apply in_map_iff in I. destruct I as (d & E & I). eauto.
  Qed.
  Lemma looks_sym x y : looks x y -> looks y x.
  Proof. unfold looks. auto. Qed.
  Definition posed (x : list lconfig) : Prop := Forall (fun c => exists p, cfg c p) x.
  Lemma present_looks x y alt q : looks x y -> posed y -> present x alt q -> present y alt q.
  Proof.
    intros L P (d & I & C & A). destruct (looks_in _ _ L _ I) as (e & J & E). exists e. split; [exact J|].
    unfold posed in P. rewrite Forall_forall in P. destruct (looks_cfg _ _ _ E C (P e J)) as (X & Y & _). split; congruence.
  Qed.
  Lemma accepted_looks x y alt : looks x y -> posed y -> accepted a x alt -> accepted a y alt.
  Proof. intros L P (i & s & X & E). exists i, s. split; [eapply present_looks; eauto | exact E]. Qed.
  Lemma covers_looks m w x y : looks x y -> posed x -> posed y -> covers m w x -> covers m w y.
  Proof.
    intros L Px Py (S & C). split.
    - intros d Hd. destruct (looks_in _ _ (looks_sym _ _ L) _ Hd) as (c & Hc & E). destruct (S c Hc) as (p & Cp & A).
      unfold posed in Py. rewrite Forall_forall in Py. destruct (looks_cfg _ _ _ (eq_sym E) Cp (Py d Hd)) as (X & Y & _). exists p. rewrite Y. auto.
    - intros alt p A. destruct (C _ _ A) as [X|(Z & [X|X])].
      + left. eapply present_looks; eauto.
      + right. split; [exact Z|]. left. eapply accepted_looks; eauto.
      + right. auto.
  Qed.
  Lemma edge_looks m t cl x y : looks x y -> posed x -> posed y -> edge_ok m t cl x -> edge_ok m t cl y.
  Proof.
    intros L Px Py (S & C). split.
    - intros d Hd. destruct (looks_in _ _ (looks_sym _ _ L) _ Hd) as (e & He & E). destruct (S e He) as (c & p & p' & q & xs & H1 & H2 & H3 & H4 & H5 & H6 & H7).
      unfold posed in Py. rewrite Forall_forall in Py. destruct (looks_cfg _ _ _ (eq_sym E) H6 (Py d Hd)) as (X & Y & _).
      exists c, p, p', q, xs. rewrite Y. auto 10.
    - intros O c p p' q xs H1 H2 H3 H4 H5. destruct (C O c p p' q xs H1 H2 H3 H4 H5) as [X|(Z & X)].
      + left. eapply present_looks; eauto.
      + right. split; [exact Z|]. eapply accepted_looks; eauto.
  Qed.

  Lemma sorted_concat (cl : list lconfig) news : Forall2 (fun c new => Forall (fun d => c_alt d = c_alt c) new) cl news -> sorted cl -> sorted (concat news).
  Proof.
    induction 1 as [|c new cl news H F IH]; intros S; [constructor|]. inversion S as [|c0 cl0 S' Fc]; subst. cbn [concat].
    assert (B : Forall (fun d => c_alt c <= c_alt d) (concat news)).
    { clear - F Fc. induction F as [|c' new' cl' news' H' F' IH]; [constructor|]. inversion Fc; subst. cbn. apply Forall_app. split; [|auto].
      eapply Forall_impl; [|exact H']. cbn. intros d E. lia. }
    clear F Fc. induction new as [|d new IHn]; [auto|]. inversion H; subst. cbn. constructor; [auto|]. apply Forall_app. split.
    - eapply Forall_impl; [|exact H3]. cbn. intros. lia.
    - eapply Forall_impl; [|exact B]. cbn. intros. lia.
  Qed.

  Lemma arises_step m t c d : arises m c -> steps_from a t c d -> arises m d.
  Proof.
    intros (P & k & q & w & xs & p & B & A & R & C & X) S. split; [eapply steps_placed; eauto|].
    destruct S as (A' & p0 & p' & r & ys & C0 & St & Q & K & Cd & X' & _). rewrite (cfg_same _ _ _ C0 C) in *.
    exists k, q, (w ++ [t]), (xs ++ ys), r. split; [exact B|]. split; [congruence|].
    split; [eapply run_qr; [|exact Q]; econstructor; eauto|]. split; [exact Cd|]. rewrite X', X, map_app. reflexivity.
  Qed.

  Lemma run_lazy m k q w xs p alt : rule_begins a m k q -> alt = Z.of_nat k + 1 -> run a (q, []) w xs p -> nongreedy_at a p -> lazy m alt.
  Proof. intros B -> R N k' E G. assert (k' = k) by lia. subst k'. exact (G _ _ _ _ B R N). Qed.
  Lemma strays_lazy m t c p p' : arises m c -> (lt_passed (c_type c) = true -> lazy m (c_alt c)) -> cfg c p -> char_step a p t p' ->
    strays a c p' -> lazy m (c_alt c).
  Proof.
    intros (_ & k & q & w & xs & p0 & B & A & R & C & _) F C0 St [X|(ys & r & Q & N)]; [auto|]. rewrite (cfg_same _ _ _ C C0) in R.
    eapply run_lazy; [exact B | exact A | | exact N]. eapply run_qr; [|exact Q]. eapply run_char; eauto.
  Qed.

  (** the lists that lexing can build in one mode *)
  Inductive built_in (m : Z) : list lconfig -> Prop :=
  | in_start : forall fuel ms s l cs l', item (mode_to_start_state a) m = Some ms -> state_at a ms = Some s ->
      compute_start_state D U a sempred ctx_hash actions_hash fuel s l = Val (cs, l') -> built_in m (configs cs)
  | in_step : forall fuel start cl t l cs l', built_in m cl ->
      get_reachable_config_set D U a sempred ctx_hash actions_hash fuel start cl t l = Val (cs, l') -> built_in m (configs cs).
  Lemma in_built m cl : built_in m cl -> built cl.
  Proof. induction 1; [eapply built_start | eapply built_step]; eauto. Qed.
  (** a good list of configurations of a mode *)
  Definition list_good (m : Z) (cl : list lconfig) : Prop :=
    Forall (arises m) cl /\ sorted cl /\ Forall (fun c => lt_passed (c_type c) = true -> lazy m (c_alt c)) cl /\ built_in m cl.
  Lemma good_posed m cl : list_good m cl -> posed cl.
  Proof. intros (H & _). eapply Forall_impl; [|exact H]. intros c ((p & C & _) & _). eauto. Qed.

  Lemma empty_inv : set_inv (new_ordered lexer_type).
  Proof. repeat split; cbn; intros; contradiction. Qed.

  Lemma reach_good fuel si m cl t l cs l' : list_good m cl ->
    get_reachable_config_set D U a sempred ctx_hash actions_hash fuel si cl t l = Val (cs, l') ->
    l' = l /\ set_inv cs /\ list_good m (configs cs) /\ edge_ok m t cl (configs cs) /\ (t = EOF -> configs cs = []).
  Proof.
    intros LG H. assert (H' := H). destruct LG as (Ar & So & Gr & Bu). unfold get_reachable_config_set in H.
    assert (Pl : Forall (placed a) cl) by (eapply Forall_impl; [|exact Ar]; intros c (P & _); exact P).
    assert (Po : Forall (fun c => 0 < c_alt c) cl).
    { eapply Forall_impl; [|exact Ar]. intros c (_ & k & q & w & xs & p & _ & E & _). lia. }
    destruct (reach_ok D U a sempred ctx_hash actions_hash FM _ _ _ _ _ _ _ _ _ Pl empty_inv Po (fun X => False_ind _ (Z.lt_irrefl 0 X)) H) as (-> & I & news & N1 & N2 & N3 & N4). cbn [configs new_ordered app] in N1.
    split; [reflexivity|]. split; [exact I|]. rewrite N1.
    assert (Src : forall d, In d (concat news) -> exists c, In c cl /\ steps_from a t c d).
    { intros d Hd. apply in_concat in Hd. destruct Hd as (new & Hn & Hd). clear - N2 Hn Hd.
      induction N2 as [|c new' cl news' F F2 IH]; [contradiction|]. destruct Hn as [->|Hn].
      - exists c. rewrite Forall_forall in F. split; [left; reflexivity | auto].
      - destruct (IH Hn) as (c' & I & S). exists c'. split; [right; exact I | exact S]. }
    rewrite Forall_forall in Ar, N3, Gr.
    split; [split; [|split; [|split]]|split; [split|exact N4]].
    - apply Forall_forall. intros d Hd. destruct (Src d Hd) as (c & Hc & S). eapply arises_step; eauto.
    - eapply sorted_concat; [|exact So]. clear - N2. induction N2 as [|c new cl news H F IH]; constructor; auto.
      eapply Forall_impl; [|exact H]. intros d (E & _). exact E.
    - apply Forall_forall. intros d Hd F. destruct (Src d Hd) as (c & Hc & (A & p & p' & q & xs & Cp & St & _ & _ & _ & _ & P)). rewrite A.
      eapply strays_lazy; [apply Ar, Hc | apply Gr, Hc | exact Cp | exact St | apply P, F].
    - rewrite <- N1. eapply in_step; eauto.
    - intros d Hd. destruct (Src d Hd) as (c & Hc & (A & p & p' & q & xs & S1 & S2 & S3 & S4 & S5 & _)).
      exists c, p, p', q, xs. auto 10.
    - intros O c p p' q xs Hc Cp St Q K. rewrite N1 in N3. destruct (N3 c Hc O p p' q xs Cp St Q K) as [X|(X & Y)]; [left; exact X | right].
      split; [|exact X]. eapply strays_lazy; [apply Ar, Hc | apply Gr, Hc | exact Cp | exact St | exact Y].
  Qed.

  Lemma start_good fuel m ms s l cs l' : item (mode_to_start_state a) m = Some ms -> state_at a ms = Some s ->
    compute_start_state D U a sempred ctx_hash actions_hash fuel s l = Val (cs, l') ->
    l' = l /\ set_inv cs /\ list_good m (configs cs) /\ covers m [] (configs cs).
  Proof.
    intros Em Es H. assert (H' := H). unfold compute_start_state in H.
    assert (F : Forall (fun t => exists_state a (get_target t)) (st_trans s)).
    { apply Forall_forall. intros t Ht. destruct (proj2 (proj2 FM) _ _ Es) as (_ & _ & W). apply W in Ht. apply Ht. }
    destruct (start_ok D U a sempred ctx_hash actions_hash FM _ _ _ _ _ _ _ F empty_inv H) as (-> & I & news & N1 & N2 & N3 & N4). cbn [configs new_ordered app] in N1.
    split; [reflexivity|]. split; [exact I|].
    assert (Src : forall d, In d (concat news) -> exists k t, nth_error (st_trans s) k = Some t /\ from a (start_cfg t (Z.of_nat k + 1)) (get_target t, []) d).
    { intros d Hd. apply in_concat in Hd. destruct Hd as (new & Hn & Hd). apply In_nth_error in Hn. destruct Hn as (k & Hk).
      destruct (nth_error (st_trans s) k) as [t|] eqn:Et.
      - exists k, t. split; [exact Et|]. specialize (N3 k t new Et Hk). rewrite Forall_forall in N3.
        replace (Z.of_nat k + 1) with (0 + 1 + Z.of_nat k) by lia. auto.
      - apply nth_error_None in Et. assert (k < length news)%nat by (apply nth_error_Some; congruence). lia. }
    assert (Bg : forall k t, nth_error (st_trans s) k = Some t -> rule_begins a m k (get_target t)).
    { intros k t Et. exists ms, s, t. auto. }
    assert (Sp : forall k t, nth_error (st_trans s) k = Some t -> sound_pos a (get_target t, [])).
    { intros k t Et. split; cbn; auto. rewrite Forall_forall in F. apply F. eapply nth_error_In; eauto. }
    rewrite N1. split; [split; [|split; [|split]]|split].
    - apply Forall_forall. intros d Hd. destruct (Src d Hd) as (k & t & Et & A & _ & q & xs & Q & K & C & X). split.
      + exists q. split; [exact C|]. split; [|exact K]. eapply (qr_sound a FM); [|exact Q]. eapply Sp; eauto.
      + exists k, (get_target t), [], xs, q. split; [eauto|]. split; [exact A|].
        split; [change xs with ([] ++ xs); eapply run_qr; [constructor | exact Q]|]. split; [exact C | exact X].
    - assert (G : forall j news, (forall k new, nth_error news k = Some new -> Forall (fun d => c_alt d = j + Z.of_nat k) new) -> sorted (concat news) /\
                Forall (fun d => j <= c_alt d) (concat news)).
      { clear. intros j news. revert j. induction news as [|new news IH]; intros j H; [split; constructor|]. cbn [concat].
        assert (H0 : Forall (fun d => c_alt d = j) new). { specialize (H O new eq_refl). cbn in H. rewrite Z.add_0_r in H. exact H. }
        destruct (IH (j + 1)) as (S & B). { intros k n' Hk. specialize (H (Datatypes.S k) n' Hk). replace (j + 1 + Z.of_nat k) with (j + Z.of_nat (Datatypes.S k)) by lia. exact H. }
        split.
        - clear H. induction new as [|d new IHn]; [exact S|]. inversion H0; subst. cbn. constructor; [auto|]. apply Forall_app. split.
          + eapply Forall_impl; [|exact H3]. cbn. intros. lia.
          + eapply Forall_impl; [|exact B]. cbn. intros. lia.
        - apply Forall_app. split; [eapply Forall_impl; [|exact H0]; cbn; intros; lia | eapply Forall_impl; [|exact B]; cbn; intros; lia]. }
      apply (G 1). intros k new Hk. destruct (nth_error (st_trans s) k) as [t|] eqn:Et.
      + eapply Forall_impl; [|exact (N3 k t new Et Hk)]. intros d (A & _). rewrite A. cbn. lia.
      + apply nth_error_None in Et. assert (k < length news)%nat by (apply nth_error_Some; congruence). lia.
    - apply Forall_forall. intros d Hd F0. destruct (Src d Hd) as (k & t & Et & A & P & _). rewrite A. cbn [start_cfg new_lexer_atnconfig6 c_alt].
      destruct (P F0) as [X|(xs & q & Q & N)]; [discriminate|].
      eapply run_lazy; [eauto | reflexivity | | exact N]. eapply run_qr; [constructor | exact Q].
    - rewrite <- N1. eapply in_start; eauto.
    - intros d Hd. destruct (Src d Hd) as (k & t & Et & A & _ & q & xs & Q & K & C & X). exists q. split; [exact C|].
      exists k, (get_target t), xs. split; [eauto|]. split; [exact A|]. split; [|exact K].
      change xs with ([] ++ xs). eapply run_qr; [constructor | exact Q].
    - intros alt p (k & b & xs & (ms' & s' & t & E1 & E2 & E3 & ->) & -> & R & K). rewrite Em in E1. inversion E1; subst ms'.
      rewrite Es in E2. inversion E2; subst s'. apply run_last in R.
      destruct R as [(_ & Q)|(w' & c & ys & zs & q & q' & E & _)]; [|symmetry in E; apply app_eq_nil in E; destruct E; discriminate].
      rewrite <- N1. replace (Z.of_nat k + 1) with (0 + 1 + Z.of_nat k) by lia. destruct (N4 _ _ _ _ E3 Q K) as [X|(X & [Y|(ys & q & Q' & N)])]; [left; exact X | discriminate | right].
      split; [|left; exact X]. eapply run_lazy; [eauto | | | exact N]; [lia|]. eapply run_qr; [constructor | exact Q'].
  Qed.

  (** ** DFA states *)
  Definition state_good (m : Z) (st : lstate) : Prop :=
    list_good m (configs (d_configs st)) /\
    match first_stop a (configs (d_configs st)) with
    | Val (Some c) => d_accept st = true /\ d_exec st = lt_exec (c_type c) /\
        exists s, state_at a (c_state c) = Some s /\ item (rule_to_token_type a) (st_rule s) = Some (d_prediction st)
    | Val None => d_accept st = false
    | _ => False
    end.
  Notation views st := (configs (d_configs st)).
  Definition edge_good (m : Z) (d : ldfa) (t : Z) (cl : list lconfig) (to : Z) : Prop :=
    (to = ERROR_DFA_STATE_REF /\ edge_ok m t cl []) \/
    (1 <= to /\ exists st, vget (dfa_states d) to = Some st /\ edge_ok m t cl (views st) /\ views st <> []).
  Definition dfa_good (m : Z) (d : ldfa) : Prop :=
    1 <= Z.of_nat (length (dfa_states d)) /\
    (forall i st, 1 <= i -> vget (dfa_states d) i = Some st -> state_good m st /\
       (d_edges st = [] \/ length (d_edges st) = 128%nat) /\
       forall t to, l_get_edge (d_edges st) t = Some to -> edge_good m d t (views st) to) /\
    (forall key b, map_get (states_map d) key = Some b -> exists i rest st, b = i :: rest /\ 1 <= i /\ vget (dfa_states d) i = Some st /\
       configs_hash (map hash_view (views st)) = key) /\
    (forall q, s0 d = Some q -> 1 <= q /\ exists st, vget (dfa_states d) q = Some st /\ covers m [] (views st)).
  (** states are never changed, except for their edges *)
  Definition same_state (st st' : lstate) : Prop :=
    d_configs st' = d_configs st /\ d_accept st' = d_accept st /\ d_prediction st' = d_prediction st /\ d_exec st' = d_exec st.
  Definition keeps (d d' : ldfa) : Prop :=
    (forall i st, vget (dfa_states d) i = Some st -> exists st', vget (dfa_states d') i = Some st' /\ same_state st st') /\
    (length (dfa_states d) <= length (dfa_states d'))%nat /\ (s0 d <> None -> s0 d' = s0 d).
  Lemma same_state_refl st : same_state st st.
  Proof. repeat split. Qed.
  Lemma keeps_refl d : keeps d d.
  Proof. split; [intros i st E; exists st; split; [exact E | apply same_state_refl]|]. split; auto. Qed.
  Lemma keeps_trans d d' d'' : keeps d d' -> keeps d' d'' -> keeps d d''.
  Proof.
    intros (A & B & C) (A' & B' & C'). split; [|split; [lia|]].
    - intros i st E. destruct (A i st E) as (st1 & E1 & S1). destruct (A' i st1 E1) as (st2 & E2 & S2). exists st2. split; [exact E2|].
      unfold same_state in *. intuition congruence.
    - intros N. rewrite C' by (rewrite C by exact N; exact N). auto.
  Qed.

  Lemma stop_total m cl : Forall (arises m) cl -> exists o, first_stop a cl = Val o /\
    match o with
    | Some c => exists l r s, cl = l ++ c :: r /\ state_at a (c_state c) = Some s /\ is_stop s /\
        forall d s', In d l -> state_at a (c_state d) = Some s' -> ~ is_stop s'
    | None => forall d s', In d cl -> state_at a (c_state d) = Some s' -> ~ is_stop s'
    end.
  Proof.
    induction cl as [|c cl IH]; intros F; cbn [first_stop].
    - exists None. split; [reflexivity|]. intros d s' [].
    - inversion F as [|c0 cl0 Fc Fcl]; subst. destruct Fc as ((p & C & (S & _) & _) & _). destruct C as (C & _). rewrite <- C in S.
      unfold exists_state in S. destruct (state_at a (c_state c)) as [s|] eqn:Es; [|congruence]. rewrite (state_of_ok a _ _ Es). cbn [obindo].
      destruct (stop_dec s) as [St|St].
      + assert (Ht : st_type s = RuleStopState) by exact St. rewrite Ht. exists (Some c). split; [reflexivity|].
        exists [], cl, s. repeat (split; auto).
      + assert (E : match st_type s with RuleStopState => Val (Some c) | _ => first_stop a cl end = first_stop a cl).
        { unfold is_stop in St. destruct (st_type s); auto. congruence. }
        rewrite E. destruct (IH Fcl) as (o & Eo & Ho). rewrite Eo. exists o. split; [reflexivity|]. destruct o as [c'|].
        * destruct Ho as (l & r & s' & -> & H1 & H2 & H3). exists (c :: l), r, s'. repeat (split; auto).
          intros d s2 [<-|I] E2; [rewrite Es in E2; inversion E2; subst; exact St | eauto].
        * intros d s2 [<-|I] E2; [rewrite Es in E2; inversion E2; subst; exact St | eauto].
  Qed.

  Lemma add_state_total m d cs : dfa_good m d -> set_inv cs -> list_good m (configs cs) ->
    exists d' i st, l_add_dfastate a configs_hash d cs = Val (d', i) /\ dfa_good m d' /\ keeps d d' /\ 1 <= i /\
      vget (dfa_states d') i = Some st /\ looks (views st) (configs cs) /\ s0 d' = s0 d.
  Proof.
    intros DG (_ & _ & Sem & _) LG. assert (LG' := LG). destruct LG' as (Ar & _ & _ & Bu).
    unfold l_add_dfastate. rewrite Sem. destruct (stop_total m _ Ar) as (o & Eo & Ho). rewrite Eo. cbn [obindo].
    assert (R : exists acc pred exec, match o with
        | Some c => let! s := state_of a (c_state c) in let! p := unwrap (vget (rule_to_token_type a) (st_rule s)) in Val (true, p, lt_exec (c_type c))
        | None => Val (false, 0, None) end = Val (acc, pred, exec) /\
        match o with
        | Some c => acc = true /\ exec = lt_exec (c_type c) /\ exists s, state_at a (c_state c) = Some s /\ item (rule_to_token_type a) (st_rule s) = Some pred
        | None => acc = false
        end).
    { destruct o as [c|].
      - destruct Ho as (l & r & s & _ & Es & St & _). rewrite (state_of_ok a _ _ Es). cbn [obindo].
        assert (T := proj2 RA _ _ Es St). unfold item in T. unfold vget.
        destruct (st_rule s <? 0) eqn:E0; [congruence|]. destruct (nth_error (rule_to_token_type a) (Z.to_nat (st_rule s))) as [p|] eqn:Ep; [|congruence].
        cbn [unwrap obindo]. do 3 eexists. split; [reflexivity|]. split; [reflexivity|]. split; [reflexivity|]. exists s. split; [exact Es|].
        unfold item. rewrite E0. exact Ep.
      - do 3 eexists. split; reflexivity. }
    destruct R as (acc & pred & exec & Er & Hr). rewrite Er. cbn [obindo].
    assert (DG' := DG). destruct DG' as (L & Sts & Map & S0).
    destruct (map_get (states_map d) (configs_hash (map hash_view (configs cs)))) as [b|] eqn:Em.
    - destruct (Map _ _ Em) as (i & rest & st & -> & Li & Ei & Hk). cbn [hd_error unwrap obindo].
      exists d, i, st. split; [reflexivity|]. split; [exact DG|]. split; [apply keeps_refl|]. split; [exact Li|]. split; [exact Ei|].
      split; [|reflexivity]. destruct (Sts i st Li Ei) as ((G & _) & _). apply in_built in Bu. apply NC; auto. eapply in_built, G.
    - set (st := DState lexer_type executor (Z.of_nat (length (dfa_states d))) (set_read_only lexer_type cs true) [] acc pred exec false []).
      eexists. exists (Z.of_nat (length (dfa_states d))), st. split; [reflexivity|].
      assert (Old : forall j st1, vget (dfa_states d) j = Some st1 -> vget (dfa_states d ++ [st]) j = Some st1).
      { intros j st1 E. rewrite vget_app. assert (B := vget_lt _ _ _ E). destruct (Z.ltb_spec j (Z.of_nat (length (dfa_states d)))); [exact E | lia]. }
      assert (New : vget (dfa_states d ++ [st]) (Z.of_nat (length (dfa_states d))) = Some st).
      { rewrite vget_app, Z.ltb_irrefl, Z.sub_diag. reflexivity. }
      split; [|split; [|split; [exact L|split; [exact New|split; reflexivity]]]].
      + split; [cbn; rewrite app_length; cbn; lia|]. split; [|split].
        * cbn [dfa_states]. intros i st1 Li E1. rewrite vget_app in E1. destruct (Z.ltb_spec i (Z.of_nat (length (dfa_states d)))).
          { destruct (Sts i st1 Li E1) as (G1 & G2 & G3). split; [exact G1|]. split; [exact G2|]. intros t to Ht.
            destruct (G3 t to Ht) as [G|(Lt & st2 & E2 & G)]; [left; exact G | right]. split; [exact Lt|]. exists st2. split; [cbn; auto | exact G]. }
          { assert (i = Z.of_nat (length (dfa_states d))).
            { assert (B := vget_lt _ _ _ E1). cbn in B. lia. }
            subst i. rewrite Z.sub_diag in E1. cbn in E1. inversion E1; subst st1. split; [|split; [left; reflexivity|]].
            - split; [exact LG|]. cbn [st d_configs set_read_only configs d_accept d_exec d_prediction]. rewrite Eo.
              destruct o as [c|]; exact Hr.
            - cbn. intros t to Ht. unfold l_get_edge, vget in Ht. destruct (t - MIN_DFA_EDGE <? 0); cbn in Ht; [discriminate|].
              destruct (Z.to_nat (t - MIN_DFA_EDGE)); discriminate. }
        * cbn [states_map dfa_states]. intros key b Hb. rewrite map_push_get, Em in Hb.
          destruct (Z.eqb_spec (configs_hash (map hash_view (configs cs))) key) as [K|K].
          { inversion Hb; subst b. eexists _, [], st. split; [reflexivity|]. split; [exact L|]. split; [exact New|]. exact K. }
          { destruct (Map _ _ Hb) as (i & rest & st1 & -> & Li & Ei & Hk). exists i, rest, st1. auto. }
        * cbn [s0 dfa_states]. intros q Hq. destruct (S0 q Hq) as (Lq & st1 & Eq & C). split; [exact Lq|]. exists st1. auto.
      + split; [|split; [cbn; rewrite app_length; lia | auto]]. cbn [dfa_states]. intros i st1 E1. exists st1. split; [auto | apply same_state_refl].
  Qed.

  Lemma add_edge_total m d from t to st : dfa_good m d -> 1 <= from -> vget (dfa_states d) from = Some st -> edge_good m d t (views st) to ->
    exists d', l_dfa_add_edge d from t to = Val d' /\ dfa_good m d' /\ keeps d d' /\ s0 d' = s0 d.
  Proof.
    intros DG Lf Ef Eg. assert (DG' := DG). destruct DG' as (L & Sts & Map & S0). unfold l_dfa_add_edge. rewrite Ef. cbn [unwrap obindo].
    assert (Nz : to <> 0). { destruct Eg as [(-> & _)|(Lt & _)]; [unfold ERROR_DFA_STATE_REF|]; lia. }
    destruct (Sts from st Lf Ef) as (G1 & G2 & G3).
    destruct (l_add_edge_ok (d_edges st) t to Nz G2) as (es & Ees & Les & Hes). rewrite Ees. cbn [obindo].
    destruct (vset_some (dfa_states d) from (with_edges lexer_type executor st es) (vget_lt _ _ _ Ef)) as (sts & Est). rewrite Est. cbn [unwrap obindo].
    eexists. split; [reflexivity|]. destruct (vset_ok _ _ _ _ Est) as (_ & Len & Get).
    assert (Cf : forall i st1, vget (dfa_states d) i = Some st1 -> exists st2, vget sts i = Some st2 /\ same_state st1 st2).
    { intros i st1 E1. rewrite Get. destruct (Z.eqb_spec i from) as [->|N].
      - rewrite Ef in E1. inversion E1; subst. eexists. split; [reflexivity | repeat split].
      - exists st1. split; [exact E1 | apply same_state_refl]. }
    assert (Eg' : forall t1 cl1 to1, edge_good m d t1 cl1 to1 -> edge_good m (with_states lexer_type executor d sts) t1 cl1 to1).
    { intros t1 cl1 to1 [X|(X1 & st1 & X2 & X3)]; [left; exact X | right]. split; [exact X1|].
      destruct (Cf _ _ X2) as (st2 & X4 & X5 & _). exists st2. cbn [with_states dfa_states]. rewrite X5. auto. }
    split; [|split; [split; [exact Cf|split; [cbn; lia|auto]]|reflexivity]].
    split; [cbn; lia|]. split; [|split].
    - cbn [with_states dfa_states]. intros i st1 Li E1. rewrite Get in E1. destruct (Z.eqb_spec i from) as [->|N].
      + inversion E1; subst st1. split; [exact G1|]. split; [exact Les|]. cbn [with_edges d_edges d_configs]. intros t1 to1 H1. rewrite Hes in H1. apply Eg'.
        destruct ((t1 =? t) && (0 <=? t) && (t <=? 127)) eqn:B; [|eauto]. inversion H1; subst. assert (t1 = t) by lia. subst. exact Eg.
      + destruct (Sts i st1 Li E1) as (H1 & H2 & H3). split; [exact H1|]. split; [exact H2|]. intros t1 to1 Ht. apply Eg'. eauto.
    - cbn [with_states dfa_states states_map]. intros key b Hb. destruct (Map _ _ Hb) as (i & rest & st1 & -> & Li & Ei & Hk).
      destruct (Cf _ _ Ei) as (st2 & E2 & S2 & _). exists i, rest, st2. rewrite S2. auto.
    - cbn [with_states dfa_states s0]. intros q Hq. destruct (S0 q Hq) as (Lq & st1 & Eq & C). split; [exact Lq|].
      destruct (Cf _ _ Eq) as (st2 & E2 & S2 & _). exists st2. rewrite S2. auto.
  Qed.

  Lemma sem_off_inv cs : set_inv cs -> set_inv (set_has_semantic_context cs false).
  Proof. intros (A & B & C & E & F). repeat split; auto. Qed.

  Lemma target_total fuel si m d s t l st reach l1 : dfa_good m d -> 1 <= s -> vget (dfa_states d) s = Some st ->
    get_reachable_config_set D U a sempred ctx_hash actions_hash fuel si (views st) t l = Val (reach, l1) ->
    exists d' to, compute_target_state D U a sempred ctx_hash actions_hash configs_hash fuel si d s t l = Val (d', to, l) /\
      dfa_good m d' /\ keeps d d' /\ edge_good m d' t (views st) to /\ s0 d' = s0 d /\ (t = EOF -> to = ERROR_DFA_STATE_REF).
  Proof.
    intros DG Ls Es H. assert (DG' := DG). destruct DG' as (_ & Sts & _). destruct (Sts s st Ls Es) as ((LG & _) & _).
    destruct (reach_good _ _ _ _ _ _ _ _ LG H) as (-> & I & LG' & Eo & Te).
    unfold compute_target_state. rewrite Es. cbn [unwrap obindo]. rewrite H. cbn [obindo]. assert (Sem := proj1 (proj2 (proj2 I))).
    destruct (configs reach) as [|c cl] eqn:Ec.
    - rewrite Sem. cbn [negb]. destruct (add_edge_total m d s t ERROR_DFA_STATE_REF st DG Ls Es (or_introl (conj eq_refl Eo))) as (d' & E1 & G1 & K1 & S1).
      rewrite E1. cbn [obindo]. exists d', ERROR_DFA_STATE_REF. split; [reflexivity|]. split; [exact G1|]. split; [exact K1|].
      split; [left; auto | auto].
    - rewrite Sem. cbn [negb].
      assert (LG2 : list_good m (configs (set_has_semantic_context reach false))) by (cbn [set_has_semantic_context configs]; rewrite Ec; exact LG').
      destruct (add_state_total m d _ DG (sem_off_inv _ I) LG2) as (d1 & to & st1 & E1 & G1 & K1 & L1 & V1 & Lk & S1). rewrite E1. cbn [obindo].
      cbn [set_has_semantic_context configs] in Lk. rewrite Ec in Lk.
      assert (Po : posed (views st1)). { destruct G1 as (_ & X & _). destruct (X _ _ L1 V1) as ((X1 & _) & _). eapply good_posed, X1. }
      assert (Eg : edge_good m d1 t (views st) to).
      { right. split; [exact L1|]. exists st1. split; [exact V1|]. split.
        - eapply edge_looks; [apply looks_sym, Lk | eapply good_posed, LG' | exact Po | exact Eo].
        - intros X. rewrite X in Lk. discriminate. }
      destruct (proj1 K1 _ _ Es) as (st' & E' & Sm & _).
      destruct (add_edge_total m d1 s t to st' G1 Ls E' ltac:(rewrite Sm; exact Eg)) as (d2 & E2 & G2 & K2 & S2).
      rewrite E2. cbn [obindo]. exists d2, to. split; [reflexivity|]. split; [exact G2|]. split; [eapply keeps_trans; eauto|].
      split; [|split; [congruence | intros Tx; specialize (Te Tx); discriminate]].
      destruct Eg as [Eg|(L2 & st2 & V2 & Eg)]; [left; exact Eg | right]. split; [exact L2|].
      destruct (proj1 K2 _ _ V2) as (st3 & E3 & Sm3 & _). exists st3. rewrite Sm3. auto.
  Qed.
  Lemma target_ok fuel si m d s t l st d' to l' : dfa_good m d -> 1 <= s -> vget (dfa_states d) s = Some st ->
    compute_target_state D U a sempred ctx_hash actions_hash configs_hash fuel si d s t l = Val (d', to, l') ->
    l' = l /\ dfa_good m d' /\ keeps d d' /\ edge_good m d' t (views st) to /\ s0 d' = s0 d /\ (t = EOF -> to = ERROR_DFA_STATE_REF).
  Proof.
    intros DG Ls Es H. assert (H' := H). unfold compute_target_state in H. rewrite Es in H. cbn [unwrap obindo] in H. step H rl Er. destruct rl as [reach l1].
    destruct (target_total _ _ _ _ _ _ _ _ _ _ DG Ls Es Er) as (d1 & to1 & E1 & R). rewrite E1 in H'. inversion H'; subst. auto.
  Qed.

  (** the next DFA state, cached or computed *)
  Definition next_state (fuel : nat) (si : Z) (d : ldfa) (s symbol : Z) (l : lexer) : outcome (ldfa * Z * lexer) :=
    let! existing := get_existing_target_state d s symbol in
    match existing with
    | Some t => Val (d, t, l)
    | None => compute_target_state D U a sempred ctx_hash actions_hash configs_hash fuel si d s symbol l
    end.
  Lemma next_ok fuel si m d s t l st d' to l' : dfa_good m d -> 1 <= s -> vget (dfa_states d) s = Some st ->
    next_state fuel si d s t l = Val (d', to, l') ->
    l' = l /\ dfa_good m d' /\ keeps d d' /\ edge_good m d' t (views st) to /\ s0 d' = s0 d /\ (t = EOF -> to = ERROR_DFA_STATE_REF).
  Proof.
    intros DG Ls Es H. unfold next_state in H. step H exi Ee. unfold get_existing_target_state in Ee. rewrite Es in Ee. cbn [unwrap obindo] in Ee.
    inversion Ee as [Ee']. clear Ee. destruct exi as [to1|].
    - inversion H; subst. assert (DG' := DG). destruct DG' as (_ & Sts & _). destruct (Sts s st Ls Es) as (_ & _ & G).
      split; [reflexivity|]. split; [exact DG|]. split; [apply keeps_refl|]. split; [apply G, Ee'|]. split; [reflexivity|].
      intros ->. cbn in Ee'. discriminate.
    - eapply target_ok; eauto.
  Qed.
  Lemma exec_loop_unfold fuel n si d s symbol p l :
    exec_loop D U a sempred ctx_hash actions_hash configs_hash fuel (S n) si d s symbol p l =
    let! (d, target, l) := next_state fuel si d s symbol l in
    if target =? ERROR_DFA_STATE_REF then Val (symbol, d, p, l)
    else
      let! l := if symbol =? EOF then Val l else sim_consume D U l in
      let! (captured, p) := capture_sim_state U d l target p in
      if captured && (symbol =? EOF) then Val (symbol, d, p, l)
      else
        let! symbol := lift (la D (lx_input U l) 1) in
        exec_loop D U a sempred ctx_hash actions_hash configs_hash fuel n si d target symbol p l.
  Proof.
    cbn [exec_loop]. unfold next_state. destruct (get_existing_target_state d s symbol) as [[t|]| |]; reflexivity.
  Qed.

  Lemma exec_loop_good fuel si m n : forall d s symbol p l st symbol' d' p' l', dfa_good m d -> 1 <= s -> vget (dfa_states d) s = Some st ->
    exec_loop D U a sempred ctx_hash actions_hash configs_hash fuel n si d s symbol p l = Val (symbol', d', p', l') ->
    dfa_good m d' /\ keeps d d' /\ s0 d' = s0 d.
  Proof.
    induction n as [|n IH]; intros d s symbol p l st symbol' d' p' l' DG Ls Es H; [discriminate|].
    rewrite exec_loop_unfold in H. step H dt Ed. destruct dt as [[d1 to] l1].
    destruct (next_ok _ _ _ _ _ _ _ _ _ _ _ DG Ls Es Ed) as (-> & G1 & K1 & Eg & S1 & _).
    destruct (Z.eqb_spec to ERROR_DFA_STATE_REF) as [|N]; [inversion H; subst; auto|].
    destruct Eg as [(X & _)|(L1 & st1 & E1 & _)]; [congruence|].
    step H l2 El. step H cp Ec. destruct cp as [b p2]. destruct (b && (symbol =? EOF)); [inversion H; subst; auto|].
    step H sy Es'. destruct (IH _ _ _ _ _ _ _ _ _ _ G1 L1 E1 H) as (G2 & K2 & S2). split; [exact G2|]. split; [eapply keeps_trans; eauto | congruence].
  Qed.

  Variable action : Z -> Z -> lexer -> lexer.
  Lemma exec_atn_good fuel si m d s p l st r d' p' l' : dfa_good m d -> 1 <= s -> vget (dfa_states d) s = Some st ->
    exec_atn D U a action sempred ctx_hash actions_hash configs_hash fuel si s d p l = Val (r, d', p', l') ->
    dfa_good m d' /\ keeps d d' /\ s0 d' = s0 d.
  Proof.
    intros DG Ls Es H. unfold exec_atn in H. step H cp Ec. destruct cp as [b p1]. step H sy Esy. step H lp El. destruct lp as [[[sy1 d1] p2] l1].
    step H rl Er. destruct rl as [r1 l2]. inversion H; subst. eapply exec_loop_good; eauto.
  Qed.

  (** the start state of a mode *)
  Lemma match_start_total fuel m d l ms s cs l1 : dfa_good m d -> s0 d = None -> item (mode_to_start_state a) m = Some ms -> state_at a ms = Some s ->
    compute_start_state D U a sempred ctx_hash actions_hash fuel s l = Val (cs, l1) ->
    exists d1 q st, l1 = l /\ l_add_dfastate a configs_hash d (set_has_semantic_context cs false) = Val (d1, q) /\ has_semantic_context cs = false /\
      dfa_good m (Dfa lexer_type executor (dfa_states d1) (states_map d1) (Some q) (is_precedence_dfa d1)) /\ keeps d d1 /\ 1 <= q /\
      vget (dfa_states d1) q = Some st /\ covers m [] (views st).
  Proof.
    intros DG N Em Es H. destruct (start_good _ _ _ _ _ _ _ Em Es H) as (-> & I & LG & Co).
    destruct (add_state_total m d _ DG (sem_off_inv _ I) LG) as (d1 & q & st & E1 & G1 & K1 & L1 & V1 & Lk & S1).
    exists d1, q, st. split; [reflexivity|]. split; [exact E1|]. split; [apply I|].
    assert (Co' : covers m [] (views st)).
    { eapply covers_looks; [apply looks_sym, Lk | eapply good_posed, LG | | exact Co].
      destruct G1 as (_ & X & _). destruct (X _ _ L1 V1) as ((X1 & _) & _). eapply good_posed, X1. }
    split; [|auto]. destruct G1 as (A & B & C & _). split; [exact A|]. split; [exact B|]. split; [exact C|].
    cbn [s0 dfa_states]. intros q' Hq. inversion Hq; subst q'. split; [exact L1|]. eauto.
  Qed.

  Definition sim_good (s : sim) : Prop :=
    length (sm_dfas s) = length (mode_to_start_state a) /\
    forall m d, vget (sm_dfas s) m = Some d -> dfa_good m d.
  Lemma vget_item {A} (l : list A) i : vget l i = item l i.
  Proof. reflexivity. Qed.
  Lemma sim_new : sim_good (new_sim a).
  Proof.
    split; [cbn; apply map_length|]. intros m d H. cbn in H. unfold vget in H. destruct (m <? 0); [discriminate|].
    apply nth_error_In in H. apply in_map_iff in H. destruct H as (x & <- & _). split; [cbn; lia|]. split; [|split].
    - intros i st Li E. apply vget_lt in E. cbn in E. lia.
    - cbn. discriminate.
    - cbn. discriminate.
  Qed.
  Lemma mode_state m ms : item (mode_to_start_state a) m = Some ms -> exists s, state_at a ms = Some s.
  Proof.
    intros H. assert (I : In ms (mode_to_start_state a)).
    { unfold item in H. destruct (m <? 0); [discriminate|]. eapply nth_error_In; eauto. }
    apply FM in I. destruct I as (I & _). unfold exists_state in I. destruct (state_at a ms); [eauto | congruence].
  Qed.
  Lemma match_good fuel mode l s r l' s' : sim_good s ->
    match_token D U a action sempred ctx_hash actions_hash configs_hash fuel mode l s = Val (r, l', s') -> sim_good s'.
  Proof.
    intros (Len & G) H. unfold match_token in H. destruct (vget (sm_dfas s) mode) as [d|] eqn:Ed; [|inversion H; subst; split; auto].
    step H rd Er. destruct rd as [[[r1 d1] p1] l1]. step H dfas Ev. inversion H; subst; clear H.
    assert (G1 : dfa_good mode d1).
    { destruct (s0 d) as [q|] eqn:E0.
      - destruct (G _ _ Ed) as (A & B & C & E). destruct (E q E0) as (Lq & st & Eq & _). eapply exec_atn_good; [exact (G _ _ Ed) | exact Lq | exact Eq | exact Er].
      - unfold match_atn in Er. rewrite vget_item in Er. destruct (item (mode_to_start_state a) mode) as [ms|] eqn:Em; [|inversion Er; subst; auto].
        destruct (mode_state _ _ Em) as (st & Est). rewrite (state_of_ok a _ _ Est) in Er. cbn [obindo] in Er.
        step Er cl Ecl. destruct cl as [c0 l2].
        destruct (match_start_total _ _ _ _ _ _ _ _ (G _ _ Ed) E0 Em Est Ecl) as (d2 & q & st2 & -> & E2 & Sm & G2 & K2 & Lq & Vq & _).
        rewrite E2 in Er. cbn [obindo] in Er. rewrite Sm in Er. eapply exec_atn_good; [exact G2 | exact Lq | exact Vq | exact Er]. }
    assert (Ev' : vset (sm_dfas s) mode d1 = Some dfas) by (destruct (vset (sm_dfas s) mode d1); cbn in Ev; congruence). destruct (vset_ok _ _ _ _ Ev') as (_ & Len' & Get). split; [cbn; congruence|].
    intros m d0 H. cbn [sm_dfas] in H. rewrite Get in H. destruct (Z.eqb_spec m mode) as [->|Nm]; [inversion H; subst; exact G1 | eauto].
  Qed.
  Lemma warmed_good s : warmed D U a action sempred ctx_hash actions_hash configs_hash s -> sim_good s.
  Proof. induction 1; [apply sim_new | eapply match_good; eauto]. Qed.
End Cache.
