(** Proofs about runs of generated rule functions. *)
From Coq Require Import ZArith List Bool Lia.
From Verif Require Import Outcome IntervalSetModel DfaModel AtnModel Ll1Model ParserModel ParserSpec ParserTreeProofs.
Import ListNotations.
Local Open Scope Z_scope.
Local Open Scope outcome_scope.

Lemma tree_ind' : forall P : tree -> Prop,
  (forall t, P (Leaf t)) -> (forall t, P (ErrLeaf t)) ->
  (forall r k ks, Forall P ks -> P (Node r k ks)) -> forall t, P t.
Proof.
  intros P H1 H2 H3. fix IH 1. intros [t|t|r k ks]; [apply H1|apply H2|]. apply H3. induction ks; constructor; [apply IH|assumption].
Qed.

Lemma call_ind' : forall P : call -> Prop,
  (forall c, (forall r s pl b, c <> CRule r s pl b) -> (forall r s n pl b, c <> CRec r s n pl b) -> P c) ->
  (forall r s pl b, Forall P b -> P (CRule r s pl b)) ->
  (forall r s n pl b, Forall P b -> P (CRec r s n pl b)) -> forall c, P c.
Proof.
  intros P H1 H2 H3. fix IH 1. intros c. destruct c; try (apply H1; discriminate).
  - apply H2. induction body; constructor; [apply IH|assumption].
  - apply H3. induction body; constructor; [apply IH|assumption].
Qed.

(** ** Trees in heaps *)
Inductive denotes (h : heap) (P : nat -> Prop) : kid -> tree -> Prop :=
| d_term : forall t, denotes h P (KTerm t) (Leaf t)
| d_err : forall t, denotes h P (KErr t) (ErrLeaf t)
| d_rule : forall i c ks, P i -> nth_error h i = Some c -> Forall2 (denotes h P) (x_children c) ks ->
    denotes h P (KRule i) (Node (x_rule c) (x_kind c) ks).

Lemma Forall2_impl_in : forall A B (R R' : A -> B -> Prop) l l',
  Forall (fun y => forall x, R x y -> R' x y) l' -> Forall2 R l l' -> Forall2 R' l l'.
Proof.
  intros A B R R' l l' H F. induction F; constructor; inversion H; subst; auto.
Qed.

Lemma denotes_mono : forall h (P : nat -> Prop) h' (P' : nat -> Prop),
  (forall i, P i -> (i < length h)%nat -> P' i /\ nth_error h' i = nth_error h i) ->
  forall T k, denotes h P k T -> denotes h' P' k T.
Proof.
  intros h P h' P' H. induction T as [t|t|r k ks IH] using tree_ind'; intros x D; inversion D; subst; [constructor|constructor|].
  match goal with E : nth_error h i = Some c |- _ =>
    assert (i < length h)%nat by (apply nth_error_Some; congruence); destruct (H i) as [HP HE]; auto;
    apply d_rule; auto; [rewrite HE; auto|] end.
  eapply Forall2_impl_in; [|eauto]. exact IH.
Qed.

Lemma denotes_shows : forall h P T k, denotes h P k T -> shows h k T.
Proof.
  intros h P. induction T as [t|t|r k ks IH] using tree_ind'; intros x D; inversion D; subst; [constructor|constructor|].
  apply sh_rule; auto. eapply Forall2_impl_in; [|eauto]. exact IH.
Qed.

(** ** Merging *)
Lemma merged_app : forall A (l r m l' r' m' : list A), merged l r m -> merged l' r' m' -> merged (l ++ l') (r ++ r') (m ++ m').
Proof. induction 1; cbn; intros; auto; constructor; auto. Qed.
Lemma merged_nil : forall A, merged (@nil A) [] [].
Proof. constructor. Qed.

Definition tree_of (x : act) : tree :=
  match x with
  | Took t e | Saw t e => if e then ErrLeaf t else Leaf t
  | Conjured t => ErrLeaf t
  end.
Definition extra_of (x : act) : list tok := match x with Took _ _ => [] | Saw t _ | Conjured t => [t] end.

Lemma tree_of_leaf : forall acts, Forall is_leaf (map tree_of acts).
Proof. intros. apply Forall_forall. intros x Hx. apply in_map_iff in Hx as ([t []|t []|t] & <- & _); exact I. Qed.
Lemma acts_merged : forall acts, merged (flat_map took acts) (flat_map extra_of acts) (flat_map leaves (map tree_of acts)).
Proof.
  induction acts as [|[t []|t []|t] acts IH]; cbn; try constructor; auto.
Qed.
Lemma acts_extra : forall acts, Forall act_ok acts -> Forall not_consumed (flat_map extra_of acts).
Proof.
  induction 1 as [|[t e|t e|t] acts Ho _ IH]; cbn; auto; constructor; auto; cbn in Ho; [left|right]; auto.
Qed.
Lemma denotes_acts : forall h P acts, Forall2 (denotes h P) (map kid_of acts) (map tree_of acts).
Proof. induction acts as [|[t []|t []|t] acts IH]; cbn; constructor; auto; constructor. Qed.

Section Run.
  Context {S : Type}.
  Variable ts : stream_ops S.
  Variable a : atn.
  Variable names : naming.
  Variable fuel : nat.
  Variable Inv : S -> Prop.
  Variable past : S -> list tok.
  Hypothesis Hist : history ts Inv past.

  Notation run_call := (run_call ts a names fuel).
  Notation run_calls := (run_calls ts a names fuel).
  Notation flat := (flat Inv past).
  Notation flat_ex := (flat_ex Inv past).

  (** what a stretch of the run consumed is what it added to the leaves *)
  Definition consumed (l l' : list tok) (p p' : parser S) : Prop :=
    Inv (p_input p) -> Inv (p_input p') /\ exists taken extra new,
      past (p_input p') = past (p_input p) ++ taken /\ l' = l ++ new /\
      merged taken extra new /\ Forall not_consumed extra.
  Lemma consumed_refl : forall l p q, (Inv (p_input p) -> Inv (p_input q) /\ past (p_input q) = past (p_input p)) -> consumed l l p q.
  Proof.
    intros l p q H HI. destruct (H HI) as [Hq Hp]. split; auto. exists [], [], []. rewrite !app_nil_r.
    repeat split; auto. constructor.
  Qed.
  Lemma consumed_trans : forall l l' l'' p q r, consumed l l' p q -> consumed l' l'' q r -> consumed l l'' p r.
  Proof.
    intros l l' l'' p q r H1 H2 HI. destruct (H1 HI) as (I1 & t1 & e1 & n1 & A1 & B1 & C1 & D1).
    destruct (H2 I1) as (I2 & t2 & e2 & n2 & A2 & B2 & C2 & D2). split; auto.
    exists (t1 ++ t2), (e1 ++ e2), (n1 ++ n2). rewrite A2, A1, B2, B1, !app_assoc. repeat split; auto.
    - now apply merged_app.
    - apply Forall_app; auto.
  Qed.

  Definition open_ids (n cur : nat) (i : nat) : Prop := (n <= i)%nat /\ i <> cur.
  Definition attach (rec b : bool) (parent : option nat) (local : nat) (h0 : heap) : heap :=
    if b && negb rec then grow parent [KRule local] h0 else h0.

  (** The state inside a rule function: [h0] was the heap when it was called, [b] is
      [build_parse_trees], [pr] the precedence stack, [st0] the start token, [x] what
      has been built. *)
  Record inv (rec : bool) (h0 : heap) (b : bool) (pr : list Z) (st0 : tok) (f : frame) (x : content) (p : parser S) : Prop := InvI {
    i_ctx : p_ctx p = Some (f_local f);
    i_build : p_build p = b;
    i_prec : p_prec p = pr;
    i_low : (length h0 <= f_local f)%nat;
    i_len : (length h0 <= length (p_heap p))%nat;
    i_par : forall i, f_parent f = Some i -> (i < length h0)%nat;
    i_node : exists c, nth_error (p_heap p) (f_local f) = Some c /\ x_parent c = f_parent f /\
      x_invoking c = f_parent_state f /\ x_rule c = f_rule f /\ x_start c = st0 /\ x_kind c = fst x /\
      (b = true -> Forall2 (denotes (p_heap p) (open_ids (length h0) (f_local f))) (x_children c) (snd x));
    i_old : forall j, (j < length h0)%nat -> nth_error (p_heap p) j = nth_error (attach rec b (f_parent f) (f_local f) h0) j
  }.

  Lemma inv_ext : forall rec h0 b pr st0 f x p q, inv rec h0 b pr st0 f x p ->
    p_ctx q = p_ctx p -> p_build q = p_build p -> p_prec q = p_prec p -> p_heap q = p_heap p ->
    inv rec h0 b pr st0 f x q.
  Proof.
    intros rec h0 b pr st0 f x p q [A1 A2 A3 A4 A5 A6 A7 A8] E1 E2 E3 E4. constructor; try congruence; rewrite ?E4; auto.
  Qed.

  (** changing only the current context, keeping the links and adding children that denote *)
  Lemma inv_update : forall rec h0 b pr st0 f x p q u more, inv rec h0 b pr st0 f x p ->
    p_ctx q = p_ctx p -> p_build q = p_build p -> p_prec q = p_prec p -> p_heap q = update (p_heap p) (f_local f) u ->
    (forall c, x_parent (u c) = x_parent c /\ x_invoking (u c) = x_invoking c /\ x_rule (u c) = x_rule c /\
               x_start (u c) = x_start c /\ x_kind (u c) = x_kind c /\
               (b = true -> exists ks, x_children (u c) = x_children c ++ ks /\
                   Forall2 (denotes (p_heap q) (open_ids (length h0) (f_local f))) ks more)) ->
    inv rec h0 b pr st0 f (fst x, snd x ++ more) q.
  Proof.
    intros rec h0 b pr st0 f x p q u more [A1 A2 A3 A4 A5 A6 A7 A8] E1 E2 E3 E4 Hu.
    destruct A7 as (c & Hc & C1 & C2 & C3 & C4 & C5 & C6).
    constructor; try congruence; auto.
    - rewrite E4, update_length. auto.
    - exists (u c). destruct (Hu c) as (U1 & U2 & U3 & U4 & U5 & U6).
      rewrite E4, (nth_update_same _ _ _ _ Hc). cbn [fst snd]. repeat split; try congruence; auto.
      intros Hb. destruct (U6 Hb) as (ks & Ek & Fk). rewrite Ek. cbn [snd]. apply Forall2_app; [|rewrite <- E4; auto].
      eapply Forall2_impl_in; [|apply (C6 Hb)]. apply Forall_forall. intros T _ k. apply denotes_mono.
      intros i [Hi1 Hi2] Hl. split; [split; auto|]. rewrite nth_update_other; auto.
    - intros j Hj. rewrite E4, nth_update_other; [auto|lia].
  Qed.

  Lemma inv_flat : forall rec h0 b pr st0 f x p q acts, inv rec h0 b pr st0 f x p -> flat acts p q ->
    inv rec h0 b pr st0 f (fst x, snd x ++ map tree_of acts) q.
  Proof.
    intros rec h0 b pr st0 f x p q acts A F. destruct F as [F1 F2 F3 F4 F5 F6 F7 F8 F9].
    rewrite (i_ctx _ _ _ _ _ _ _ _ A) in F6. cbn [grow] in F6.
    eapply inv_update; eauto.
    intros c. repeat split; auto. intros Hb. exists (map kid_of acts). split; [|apply denotes_acts].
    unfold kids_of, showing. rewrite (i_build _ _ _ _ _ _ _ _ A), Hb. reflexivity.
  Qed.

  Lemma flat_consumed : forall acts p q l, flat acts p q -> consumed l (l ++ flat_map leaves (map tree_of acts)) p q.
  Proof.
    intros acts p q l F HI. destruct F as [F1 F2 F3 F4 F5 F6 F7 F8 F9]. destruct (F8 HI) as [I1 P1]. split; auto.
    exists (flat_map took acts), (flat_map extra_of acts), (flat_map leaves (map tree_of acts)).
    repeat split; auto; [apply acts_merged|now apply acts_extra].
  Qed.

  Definition same_frame (f f' : frame) : Prop :=
    f_parent f' = f_parent f /\ f_parent_state f' = f_parent_state f /\ f_start f' = f_start f /\ f_rule f' = f_rule f.
  Lemma same_frame_refl : forall f, same_frame f f.
  Proof. unfold same_frame. auto. Qed.
  Lemma same_frame_trans : forall f g h, same_frame f g -> same_frame g h -> same_frame f h.
  Proof. unfold same_frame. intuition congruence. Qed.

  Definition ended (r : option perr) : Prop := match r with Some (FallThrough _) => False | _ => True end.
  Definition more_leaves (x y : content) : Prop := exists more, Forall is_leaf more /\ y = (fst x, snd x ++ more).
  Definition all_leaves (x : content) : list tok := flat_map leaves (snd x).

  Definition call_ok (c : call) : Prop :=
    forall rec h0 b pr st0 f x p g g' p' f' r,
      generated rec c -> inv rec h0 b pr st0 f x p -> run_call c g p f = Val (g', p', f', r) -> ended r ->
      exists x', inv rec h0 b pr st0 f' x' p' /\ same_frame f f' /\ p_listeners p' = p_listeners p /\
        (b = true -> match r with None => grows (f_rule f) c x x' | Some _ => more_leaves x x' end) /\
        (b = true -> consumed (all_leaves x) (all_leaves x') p p').

  Definition body_ok (cs : list call) : Prop :=
    forall rec h0 b pr st0 f x p g g' p' f' r,
      Forall (generated rec) cs -> inv rec h0 b pr st0 f x p -> run_calls cs g p f = Val (g', p', f', r) -> ended r ->
      exists x', inv rec h0 b pr st0 f' x' p' /\ same_frame f f' /\ p_listeners p' = p_listeners p /\
        (b = true -> match r with
                     | None => grows_all (f_rule f) cs x x'
                     | Some _ => exists don c rest y, cs = don ++ c :: rest /\ grows_all (f_rule f) don x y /\ more_leaves y x'
                     end) /\
        (b = true -> consumed (all_leaves x) (all_leaves x') p p').

  Lemma body_from_calls : forall cs, Forall call_ok cs -> body_ok cs.
  Proof.
    induction 1 as [|c cs Hc _ IH]; intros rec h0 b pr st0 f x p g g' p' f' r HG A H E; cbn [ParserModel.run_calls] in H.
    - inversion H; subst. exists x. split; auto. split; [apply same_frame_refl|]. split; auto. split; intros; [constructor|].
      apply consumed_refl; auto.
    - inversion HG as [|? ? G1 G2]; subst.
      destruct (ParserModel.run_call ts a names fuel c g p f) as [[[[g1 p1] f1] r1]| |] eqn:E1; cbn [obindo] in H; try discriminate.
      destruct r1 as [e|].
      + inversion H; subst. destruct (Hc _ _ _ _ _ _ _ _ _ _ _ _ _ G1 A E1 E) as (x' & A' & SF & L & G & C).
        exists x'. repeat (split; [assumption|]). split; auto. intros Hb. exists [], c, cs, x. split; auto. split; [constructor|]. auto.
      + destruct (Hc _ _ _ _ _ _ _ _ _ _ _ _ _ G1 A E1 Logic.I) as (x1 & A1 & SF1 & L1 & Gr1 & C1).
        destruct (IH _ _ _ _ _ _ _ _ _ _ _ _ _ G2 A1 H E) as (x' & A' & SF & L & G & C).
        exists x'. split; auto. split; [eapply same_frame_trans; eauto|]. split; [congruence|]. split.
        * intros Hb. destruct SF1 as (_ & _ & _ & HR). rewrite HR in G. specialize (G Hb). specialize (Gr1 Hb). destruct r.
          -- destruct G as (don & c' & rest & y & -> & Gd & M). exists (c :: don), c', rest, y. split; auto. split; auto.
             econstructor; eauto.
          -- econstructor; eauto.
        * intros Hb. eapply consumed_trans; eauto.
  Qed.

  Lemma run_calls_eq : forall cs g p f,
    (fix rc (cs : list call) (g : strategy) (p : parser S) (f : frame) {struct cs} : outcome step :=
      match cs with
      | [] => Val (g, p, f, None)
      | c :: cs =>
          let! (g, p, f, r) := ParserModel.run_call ts a names fuel c g p f in
          match r with None => rc cs g p f | Some e => Val (g, p, f, Some e) end
      end) cs g p f = run_calls cs g p f.
  Proof.
    induction cs as [|c cs IH]; intros; cbn [ParserModel.run_calls]; auto.
  Qed.

  (** ** Calls that neither open nor close a rule *)
  Lemma simple_flat : forall rec h0 b pr st0 f x p q (r : option perr) c, inv rec h0 b pr st0 f x p -> flat_ex p q ->
    may_add_leaves c ->
    exists x', inv rec h0 b pr st0 f x' q /\ same_frame f f /\ p_listeners q = p_listeners p /\
      (b = true -> match r with None => grows (f_rule f) c x x' | Some _ => more_leaves x x' end) /\
      (b = true -> consumed (all_leaves x) (all_leaves x') p q).
  Proof.
    intros rec h0 b pr st0 f x p q r c A [acts F] Hc. exists (fst x, snd x ++ map tree_of acts).
    split; [eapply inv_flat; eauto|]. split; [apply same_frame_refl|]. split; [apply (fl_listeners _ _ _ _ _ F)|]. split.
    - intros _. destruct r.
      + exists (map tree_of acts). split; auto. apply tree_of_leaf.
      + destruct x as [k l]. apply g_leaves; auto. apply tree_of_leaf.
    - intros _. unfold all_leaves. cbn [snd]. rewrite flat_map_app. now apply flat_consumed.
  Qed.

  Lemma quiet : forall rec h0 b pr st0 f x p q c, inv rec h0 b pr st0 f x q ->
    p_listeners q = p_listeners p -> (Inv (p_input p) -> Inv (p_input q) /\ past (p_input q) = past (p_input p)) ->
    adds_nothing c ->
    exists x', inv rec h0 b pr st0 f x' q /\ same_frame f f /\ p_listeners q = p_listeners p /\
      (b = true -> grows (f_rule f) c x x') /\ (b = true -> consumed (all_leaves x) (all_leaves x') p q).
  Proof.
    intros rec h0 b pr st0 f x p q c A L HI Hc. exists x. split; auto. split; [apply same_frame_refl|]. split; auto. split; intros _.
    - destruct x. now apply g_quiet.
    - now apply consumed_refl.
  Qed.

  Lemma content_nil : forall x : content, (fst x, snd x ++ []) = x.
  Proof. intros [k l]. cbn. now rewrite app_nil_r. Qed.

  Lemma inv_stop : forall rec h0 b pr st0 f x p t, inv rec h0 b pr st0 f x p ->
    inv rec h0 b pr st0 f x (modify p (f_local f) (set_stop t)).
  Proof.
    intros rec h0 b pr st0 f x p t A. rewrite <- (content_nil x). eapply inv_update; eauto; cbn; auto.
    intros c. repeat split; auto. intros. exists []. split; [now rewrite app_nil_r|constructor].
  Qed.

  Ltac step H := match type of H with obindo ?x _ = Val _ => let E := fresh "E" in destruct x eqn:E; cbn [obindo] in H; [|discriminate|discriminate] end.

  Lemma enter_event : forall p q : parser S, trigger_enter_rule_event p = Val q ->
    p_ctx q = p_ctx p /\ p_build q = p_build p /\ p_prec q = p_prec p /\ p_heap q = p_heap p /\
    p_listeners q = p_listeners p /\ p_input q = p_input p /\ p_state q = p_state p.
  Proof.
    intros p q H. unfold trigger_enter_rule_event in H. step H. step H. inversion H; subst. destruct (x_plain a1); cbn; auto 10.
  Qed.
  Lemma exit_event : forall p q : parser S, trigger_exit_rule_event p = Val q ->
    p_ctx q = p_ctx p /\ p_build q = p_build p /\ p_prec q = p_prec p /\ p_heap q = p_heap p /\
    p_listeners q = p_listeners p /\ p_input q = p_input p /\ p_state q = p_state p.
  Proof.
    intros p q H. unfold trigger_exit_rule_event in H. step H. step H. inversion H; subst. destruct (x_plain a1); cbn; auto 10.
  Qed.

  (** ** Replacing the context under construction by a fresh copy *)
  Lemma denotes_fresh : forall h h' n cur cur' T k, (length h <= cur')%nat -> 
    (forall i, (n <= i)%nat -> i <> cur -> (i < length h)%nat -> nth_error h' i = nth_error h i) ->
    denotes h (open_ids n cur) k T -> denotes h' (open_ids n cur') k T.
  Proof.
    intros h h' n cur cur' T k Hl Hsame. apply denotes_mono. intros i [H1 H2] Hi. split; [split; auto; lia|auto].
  Qed.

  Lemma nth_app_old : forall (h : heap) c i, (i < length h)%nat -> nth_error (h ++ [c]) i = nth_error h i.
  Proof. intros. now apply nth_error_app1. Qed.
  Lemma nth_app_new : forall (h : heap) c, nth_error (h ++ [c]) (length h) = Some c.
  Proof. intros. rewrite nth_error_app2, Nat.sub_diag; auto. Qed.
  Lemma update_app_old : forall h c i u, (i < length h)%nat -> update (h ++ [c]) i u = update h i u ++ [c].
  Proof. induction h as [|y h IH]; intros c [|i] u H; cbn in *; try lia; auto. rewrite IH; auto; lia. Qed.
  Lemma update_app_new : forall h c u, update (h ++ [c]) (length h) u = h ++ [u c].
  Proof. induction h as [|y h IH]; intros; cbn; auto. now rewrite IH. Qed.

  Lemma label_ok : forall k, call_ok (CLabel k).
  Proof.
    intros k rec h0 b pr st0 f x p g g' p' f' r HG A H E. cbn [ParserModel.run_call] in H. cbn [generated] in HG. subst rec.
    destruct A as [A1 A2 A3 A4 A5 A6 (c & Hc & C1 & C2 & C3 & C4 & C5 & C6) A8].
    unfold deref in H. rewrite Hc in H. cbn [unwrap obindo alloc] in H. inversion H; subst p' f' r g'. clear H.
    assert (Hloc : (f_local f < length (p_heap p))%nat) by (apply nth_error_Some; congruence).
    exists (k, snd x). split; [|split; [unfold same_frame; cbn; auto|split; [reflexivity|split]]].
    - constructor; cbn; auto; try lia.
      + rewrite app_length. lia.
      + exists (copy_from c k false). rewrite nth_app_new. repeat split; auto. intros Hb. cbn.
        eapply Forall2_impl_in; [|apply (C6 Hb)]. apply Forall_forall. intros T _ y. apply denotes_fresh; auto.
        intros. now apply nth_app_old.
      + intros j Hj. rewrite nth_app_old by lia. rewrite A8 by auto. unfold attach. now rewrite andb_false_r.
    - intros _. destruct x. constructor.
    - intros _. apply consumed_refl; auto.
  Qed.

  Lemma attach_relabel : forall h0 parent n i j, (forall k, parent = Some k -> (k < length h0)%nat) -> 
    nth_error (match parent with
               | Some k => update (update (grow parent [KRule i] h0) k remove_last_child) k (add_child (KRule n))
               | None => grow parent [KRule i] h0
               end) j = nth_error (grow parent [KRule n] h0) j.
  Proof.
    intros h0 [k|] n i j Hp; cbn; auto. rewrite !update_update. f_equal. apply update_ext. intros c _.
    unfold remove_last_child, add_child, add_kids, set_children. cbn. now rewrite removelast_last.
  Qed.

  Lemma nth_update_agree : forall h h' i u j n, (forall j, (j < n)%nat -> nth_error h j = nth_error h' j) -> (j < n)%nat ->
    nth_error (update h i u) j = nth_error (update h' i u) j.
  Proof.
    intros h h' i u j n H Hj. destruct (Nat.eq_dec i j) as [->|D].
    - destruct (nth_error h j) as [c|] eqn:E.
      + rewrite (nth_update_same _ _ _ _ E). rewrite H in E by auto. now rewrite (nth_update_same _ _ _ _ E).
      + rewrite (update_none _ _ _ E). rewrite H in E by auto. now rewrite (update_none h' _ _ E), H.
    - rewrite !nth_update_other by auto. auto.
  Qed.

  Lemma alt_ok : forall k, call_ok (CAlt (Some k)).
  Proof.
    intros k rec h0 b pr st0 f x p g g' p' f' r HG A H E. cbn [ParserModel.run_call] in H. cbn [generated] in HG. subst rec.
    destruct A as [A1 A2 A3 A4 A5 A6 (c & Hc & C1 & C2 & C3 & C4 & C5 & C6) A8].
    unfold deref in H. rewrite Hc in H. cbn [unwrap obindo alloc] in H.
    assert (Hloc : (f_local f < length (p_heap p))%nat) by (apply nth_error_Some; congruence).
    unfold enter_outer_alt in H. cbn [get_ctx p_ctx with_heap] in H. unfold get_ctx in H. cbn [p_ctx with_heap] in H. rewrite A1 in H.
    cbn [unwrap obindo] in H. unfold deref in H. cbn [p_heap with_heap] in H. rewrite nth_app_old, Hc in H by auto.
    cbn [unwrap obindo] in H. cbn [p_build with_heap] in H.
    set (n := length (p_heap p)) in *. replace (Nat.eqb n (f_local f)) with false in H by (symmetry; apply Nat.eqb_neq; lia).
    rewrite A2, andb_true_r, C1 in H.
    set (h1 := p_heap p ++ [copy_from c k false]) in *.
    set (p1 := if b then match f_parent f with
                        | Some j => modify (modify (with_heap p h1) j remove_last_child) j (add_child (KRule n))
                        | None => with_heap p h1 end else with_heap p h1) in *.
    step H. inversion H; subst p' f' r g'. clear H.
    destruct (enter_event _ _ E0) as (B1 & B2 & B3 & B4 & B5 & B6 & _).
    assert (P1 : p_build p1 = b /\ p_prec p1 = pr /\ p_listeners p1 = p_listeners p /\ p_input p1 = p_input p).
    { subst p1. destruct b; [destruct (f_parent f)|]; cbn; auto. }
    destruct P1 as (P1 & P2 & P3 & P4). cbn [p_ctx p_build p_prec p_heap p_listeners p_input with_ctx] in *.
    assert (Hheap : p_heap p1 = if b then match f_parent f with
                        | Some j => update (update h1 j remove_last_child) j (add_child (KRule n)) | None => h1 end else h1).
    { subst p1. destruct b; [destruct (f_parent f)|]; cbn; auto. }
    assert (Hhi : forall i, (length h0 <= i)%nat -> nth_error (p_heap p1) i = nth_error h1 i).
    { intros i Hi. rewrite Hheap. destruct b; auto. destruct (f_parent f) as [j|]; auto. specialize (A6 j eq_refl).
      rewrite !nth_update_other by lia. auto. }
    assert (Hlen : length (p_heap p1) = Datatypes.S n).
    { rewrite Hheap. subst h1. destruct b; [destruct (f_parent f)|]; rewrite ?update_length, app_length; cbn; lia. }
    exists (k, snd x). split; [|split; [unfold same_frame; cbn; auto|split; [congruence|split]]].
    - constructor; cbn; auto; try congruence; try lia.
      + rewrite B4, Hlen. lia.
      + exists (copy_from c k false). rewrite B4, Hhi by lia. subst h1. rewrite nth_app_new. repeat split; auto. intros Hb. cbn.
        eapply Forall2_impl_in; [|apply (C6 Hb)]. apply Forall_forall. intros T _ y. apply denotes_fresh; auto.
        intros. rewrite Hhi by lia. now apply nth_app_old.
      + intros j Hj. rewrite B4, Hheap. unfold attach in *. cbn [negb] in *. rewrite andb_true_r in *.
        assert (Hj1 : forall m, (m < length h0)%nat -> nth_error h1 m = nth_error (p_heap p) m).
        { intros. subst h1. apply nth_app_old. lia. }
        destruct b.
        * rewrite <- (attach_relabel h0 (f_parent f) n (f_local f) j) by auto.
          destruct (f_parent f) as [q|] eqn:Eq.
          -- eapply nth_update_agree with (n := length h0); auto. intros m Hm. eapply nth_update_agree with (n := length h0); auto.
             intros l Hl. rewrite Hj1, A8; auto.
          -- rewrite Hj1, A8; auto.
        * rewrite Hj1, A8; auto.
    - intros _. destruct x. constructor.
    - intros _. apply consumed_refl. rewrite B6, P4. auto.
  Qed.

  Lemma next_ok : forall k pl, call_ok (CNext k pl).
  Proof.
    intros k pl rec h0 b pr st0 f x p g g' p' f' r HG A H E. cbn [ParserModel.run_call] in H. cbn [generated] in HG. subst rec.
    destruct A as [A1 A2 A3 A4 A5 A6 (c & Hc & C1 & C2 & C3 & C4 & C5 & C6) A8].
    cbn [alloc] in H. set (n := length (p_heap p)) in *. set (c1 := new_parser_ctx _ _ _ _ _) in *.
    assert (Hloc : (f_local f < n)%nat) by (apply nth_error_Some; congruence).
    unfold push_new_recursion_context in H. unfold get_ctx in H. cbn [p_ctx with_heap] in H. rewrite A1 in H. cbn [unwrap obindo] in H.
    set (p0 := modify (modify (with_heap p (p_heap p ++ [c1])) (f_local f) (set_parent (Some n))) (f_local f) (set_invoking_state (f_start f))) in *.
    destruct (lt ts p0 (-1)) as [[q t]| |] eqn:Elt; cbn [obindo] in H; try discriminate.
    pose proof (lt_flat ts Inv past Hist _ _ _ _ Elt) as F. destruct F as [F1 F2 F3 F4 F5 F6 F7 F8 F9].
    assert (Fh : p_heap q = p_heap p0).
    { rewrite F6. unfold kids_of. destruct (showing p0); apply grow_nil. }
    set (u := fun c => set_stop t (set_invoking_state (f_start f) (set_parent (Some n) c))).
    assert (Hq : update (p_heap q) (f_local f) (set_stop t) = update (p_heap p) (f_local f) u ++ [c1]).
    { rewrite Fh. subst p0. cbn. rewrite !update_update. rewrite update_app_old by auto. reflexivity. }
    unfold deref, modify in H. cbn [p_heap with_heap] in H. rewrite Hq in H. 
    rewrite nth_app_old in H by (rewrite update_length; auto). rewrite (nth_update_same _ _ _ _ Hc) in H. cbn [unwrap obindo] in H.
    assert (Hnew : forall y v, update (update (p_heap p) (f_local f) u ++ [y]) n v = update (p_heap p) (f_local f) u ++ [v y]).
    { intros y v. replace n with (length (update (p_heap p) (f_local f) u)) by apply update_length. apply update_app_new. }
    rewrite Hnew in H.
    set (c2 := set_start (Some (x_start (u c))) c1) in *.
    cbn [p_build with_ctx with_heap] in H. rewrite F2 in H. replace (p_build p0) with b in H by (subst p0; cbn; auto).
    set (p2 := if b then _ else _) in H.
    assert (Hp2 : p_heap p2 = update (p_heap p) (f_local f) u ++ [if b then add_child (KRule (f_local f)) c2 else c2] /\
              p_ctx p2 = Some n /\ p_build p2 = b /\ p_prec p2 = pr /\ p_listeners p2 = p_listeners p /\ p_input p2 = p_input q).
    { subst p2. destruct b; cbn; (split; [|split; [auto|split; [rewrite F2; subst p0; cbn; auto|
         split; [rewrite F4; subst p0; cbn; auto|split; [rewrite F5; subst p0; cbn; auto|auto]]]]]).
      - now rewrite !Hnew.
      - now rewrite ?Hnew. }
    destruct Hp2 as (H1 & H2 & H3 & H4 & H5 & H6).
    step H. inversion H; subst p' f' r g'. clear H.
    destruct (enter_event _ _ E0) as (B1 & B2 & B3 & B4 & B5 & B6 & _).
    set (c3 := if b then add_child (KRule (f_local f)) c2 else c2) in *.
    assert (Hn : nth_error (p_heap a0) n = Some c3).
    { rewrite B4, H1. replace n with (length (update (p_heap p) (f_local f) u)) by apply update_length. apply nth_app_new. }
    assert (Hold : forall i, (i < n)%nat -> i <> f_local f -> nth_error (p_heap a0) i = nth_error (p_heap p) i).
    { intros i Hi D. rewrite B4, H1. rewrite nth_app_old by (rewrite update_length; auto). apply nth_update_other. congruence. }
    assert (Hl : nth_error (p_heap a0) (f_local f) = Some (u c)).
    { rewrite B4, H1. rewrite nth_app_old by (rewrite update_length; auto). now apply nth_update_same. }
    exists (k, [Node (f_rule f) (fst x) (snd x)]). split; [|split; [unfold same_frame; cbn; auto|split; [congruence|split]]].
    - constructor; cbn [f_local set_local f_parent f_parent_state f_start f_rule fst snd]; auto; try congruence; try lia.
      + rewrite B4, H1, app_length, update_length. cbn. lia.
      + exists c3. split; auto. subst c3. destruct b; repeat split; auto; try discriminate.
        intros _. cbn [c2 c1 add_child set_children x_children set_start new_parser_ctx app].
        constructor; [|constructor]. replace (f_rule f) with (x_rule (u c)) by auto. rewrite <- C5.
        change (x_kind c) with (x_kind (u c)). apply d_rule; auto.
        * split; [auto|lia].
        * eapply Forall2_impl_in; [|apply (C6 eq_refl)]. apply Forall_forall. intros T _ y. apply denotes_fresh; auto.
      + intros j Hj. rewrite Hold by lia. rewrite A8 by auto. unfold attach. now rewrite andb_false_r.
    - intros _. destruct x. constructor.
    - intros _. replace (all_leaves (k, [Node (f_rule f) (fst x) (snd x)])) with (all_leaves x)
        by (unfold all_leaves; cbn; now rewrite app_nil_r).
      apply consumed_refl. rewrite B6, H6. intros HI. destruct (F8 HI) as [I1 P1]. cbn in P1. rewrite app_nil_r in P1. auto.
  Qed.

  (** ** Calling a rule *)
  Definition wf (p : parser S) : Prop := forall i, p_ctx p = Some i -> (i < length (p_heap p))%nat.

  Record returned (rule : Z) (body : list call) (p p' : parser S) (n : nat) (T : tree) : Prop := Returned {
    r_ctx : p_ctx p' = p_ctx p;
    r_build : p_build p' = p_build p;
    r_prec : p_prec p' = p_prec p;
    r_listeners : p_listeners p' = p_listeners p;
    r_low : (length (p_heap p) <= n)%nat;
    r_len : (length (p_heap p) <= length (p_heap p'))%nat;
    r_node : exists c, nth_error (p_heap p') n = Some c /\ x_parent c = p_ctx p /\ x_rule c = rule;
    r_old : forall j, (j < length (p_heap p))%nat ->
      nth_error (p_heap p') j = nth_error (if p_build p then grow (p_ctx p) [KRule n] (p_heap p) else p_heap p) j;
    r_tree : p_build p = true ->
      denotes (p_heap p') (fun j => (length (p_heap p) <= j)%nat) (KRule n) T /\
      makes rule body T /\ consumed [] (leaves T) p p'
  }.

  Lemma lt_same : forall p k p' t, lt ts p k = Val (p', t) ->
    p_ctx p' = p_ctx p /\ p_build p' = p_build p /\ p_prec p' = p_prec p /\ p_heap p' = p_heap p /\
    p_listeners p' = p_listeners p /\ p_state p' = p_state p /\
    (Inv (p_input p) -> Inv (p_input p') /\ past (p_input p') = past (p_input p)).
  Proof.
    intros p k p' t H. destruct (lt_flat ts Inv past Hist _ _ _ _ H) as [F1 F2 F3 F4 F5 F6 F7 F8 F9].
    repeat split; auto.
    - rewrite F6. unfold kids_of. destruct (showing p); apply grow_nil.
    - apply F8; auto.
    - destruct (F8 H0) as [_ E]. cbn in E. now rewrite app_nil_r in E.
  Qed.

  Lemma wf_not_self : forall p, wf p -> p_ctx p <> Some (length (p_heap p)).
  Proof. intros p W E. specialize (W _ E). lia. Qed.

  Lemma enter_rule_inv : forall p rule st pl start q, wf p ->
    enter_rule ts (with_heap p (p_heap p ++ [new_parser_ctx (p_ctx p) st rule 0 pl])) (length (p_heap p)) start = Val q ->
    (exists st0, inv false (p_heap p) (p_build p) (p_prec p) st0 (Frame (length (p_heap p)) (p_ctx p) st start rule) (0%nat, []) q) /\
    p_listeners q = p_listeners p /\ (Inv (p_input p) -> Inv (p_input q) /\ past (p_input q) = past (p_input p)).
  Proof.
    intros p rule st pl start q W H. unfold enter_rule in H. set (c0 := new_parser_ctx _ _ _ _ _) in *. set (n := length (p_heap p)) in *.
    step H. destruct a0 as [p1 t]. destruct (lt_same _ _ _ _ E) as (B1 & B2 & B3 & B4 & B5 & B6 & B7).
    cbn [p_ctx p_build p_prec p_heap p_listeners p_input with_heap set_state] in *.
    cbn [p_build with_ctx modify with_heap] in H.
    set (c1 := set_start t c0) in *.
    assert (H1 : p_heap (modify p1 n (set_start t)) = p_heap p ++ [c1]).
    { cbn. rewrite B4. apply update_app_new. }
    assert (Hq : p_ctx q = Some n /\ p_build q = p_build p /\ p_prec q = p_prec p /\ p_listeners q = p_listeners p /\ p_input q = p_input p1 /\
                 p_heap q = (if p_build p then grow (p_ctx p) [KRule n] (p_heap p) else p_heap p) ++ [c1]).
    { rewrite B2 in H. destruct (p_build p) eqn:Eb.
      - unfold add_context_to_parse_tree, get_ctx in H. cbn [p_ctx with_ctx unwrap obindo] in H. unfold deref in H.
        cbn [p_heap with_ctx] in H. rewrite H1, nth_app_new in H. cbn [unwrap obindo] in H. inversion H; subst q. clear H.
        change (x_parent c1) with (p_ctx p). destruct (p_ctx p) as [j|] eqn:Ej; cbn [p_ctx p_build p_prec p_listeners p_input p_heap modify with_heap with_ctx grow]; 
          repeat (split; [solve [auto]|]).
        + rewrite B4. fold n. unfold n at 2. rewrite update_app_new. rewrite update_app_old by (apply W; auto). reflexivity.
        + exact H1.
      - inversion H; subst q. repeat (split; [solve [auto]|]). exact H1. }
    destruct Hq as (Q1 & Q2 & Q3 & Q4 & Q5 & Q6).
    assert (Hlen : forall bb : bool, length (if bb then grow (p_ctx p) [KRule n] (p_heap p) else p_heap p) = n).
    { intros []; auto. destruct (p_ctx p); cbn; rewrite ?update_length; auto. }
    assert (Hnew : nth_error (p_heap q) n = Some c1).
    { rewrite Q6. rewrite <- (Hlen (p_build p)) at 2. apply nth_app_new. }
    split; [|split; [auto|rewrite Q5; auto]].
    exists (x_start c1). constructor; auto.
    - rewrite Q6, app_length, Hlen. cbn. lia.
    - exists c1. split; [exact Hnew|]. repeat split; auto. intros _. constructor.
    - intros j Hj. rewrite Q6. rewrite nth_app_old by (rewrite Hlen; auto). unfold attach. cbn [negb f_parent f_local]. now rewrite andb_true_r.
  Qed.

  Lemma enter_recursion_inv : forall p rule st pl start prec q, wf p ->
    enter_recursion_rule ts (with_heap p (p_heap p ++ [new_parser_ctx (p_ctx p) st rule 0 pl])) (length (p_heap p)) start prec = Val q ->
    (exists st0, inv true (p_heap p) (p_build p) (p_prec p ++ [prec]) st0 (Frame (length (p_heap p)) (p_ctx p) st start rule) (0%nat, []) q) /\
    p_listeners q = p_listeners p /\ (Inv (p_input p) -> Inv (p_input q) /\ past (p_input q) = past (p_input p)).
  Proof.
    intros p rule st pl start prec q W H. unfold enter_recursion_rule in H. set (c0 := new_parser_ctx _ _ _ _ _) in *. set (n := length (p_heap p)) in *.
    step H. destruct a0 as [p1 t]. destruct (lt_same _ _ _ _ E) as (B1 & B2 & B3 & B4 & B5 & B6 & B7).
    cbn [p_ctx p_build p_prec p_heap p_listeners p_input with_heap set_state with_prec] in *.
    inversion H; subst q. clear H.
    set (c1 := set_start t c0) in *.
    assert (H1 : p_heap (modify p1 n (set_start t)) = p_heap p ++ [c1]).
    { cbn. rewrite B4. apply update_app_new. }
    split; [|split; auto]. exists (x_start c1). constructor; auto; cbn [p_heap with_ctx]; rewrite ?H1.
    - rewrite app_length. cbn. lia.
    - exists c1. split; [apply nth_app_new|]. repeat split; auto. intros _. constructor.
    - intros j Hj. rewrite nth_app_old by auto. unfold attach. now rewrite andb_false_r.
  Qed.

  Lemma inv_tree : forall rec h0 b pr st0 f x p, inv rec h0 b pr st0 f x p -> b = true ->
    denotes (p_heap p) (fun j => (length h0 <= j)%nat) (KRule (f_local f)) (Node (f_rule f) (fst x) (snd x)).
  Proof.
    intros rec h0 b pr st0 f x p [A1 A2 A3 A4 A5 A6 (c & Hc & C1 & C2 & C3 & C4 & C5 & C6) A8] Hb.
    rewrite <- C3, <- C5. apply d_rule; auto. eapply Forall2_impl_in; [|apply (C6 Hb)].
    apply Forall_forall. intros T _ k. apply denotes_mono. intros i [H1 H2] _. auto.
  Qed.

  (** the body of a rule function and what follows it *)
  Lemma body_catch : forall rec body h0 b pr st0 f p g g1 p1 f1 r1 g2 p2 r2, body_ok body -> Forall (generated rec) body ->
    inv rec h0 b pr st0 f (0%nat, []) p -> run_calls body g p f = Val (g1, p1, f1, r1) ->
    catch ts a names fuel g1 p1 r1 = Val (g2, p2, r2) -> ended r2 ->
    r2 = None /\ exists x, inv rec h0 b pr st0 f1 x p2 /\ same_frame f f1 /\ p_listeners p2 = p_listeners p /\
      (b = true -> makes (f_rule f) body (Node (f_rule f) (fst x) (snd x))) /\
      (b = true -> consumed [] (all_leaves x) p p2).
  Proof.
    intros rec body h0 b pr st0 f p g g1 p1 f1 r1 g2 p2 r2 HB HG A H1 H2 E2.
    assert (r2 = None).
    { destruct r2 as [e|]; auto. destruct (catch_result ts a names fuel _ _ _ _ _ _ H2) as [? ->]. cbn in E2. contradiction. }
    subst r2. split; auto.
    assert (E1 : ended r1).
    { destruct r1 as [[]|]; cbn; auto. cbn in H2. inversion H2. }
    destruct (HB _ _ _ _ _ _ _ _ _ _ _ _ _ HG A H1 E1) as (x & A1 & SF & L & G & C).
    destruct r1 as [e|].
    - destruct (catch_flat ts a names fuel Inv past Hist _ _ _ _ _ _ H2) as [acts F].
      exists (fst x, snd x ++ map tree_of acts). split; [eapply inv_flat; eauto|]. split; auto. split.
      { rewrite (fl_listeners _ _ _ _ _ F). auto. }
      split; intros Hb.
      + destruct (G Hb) as (don & c & rest & [k ks] & -> & Gd & more & Hm & ->). cbn [fst snd]. rewrite <- app_assoc.
        eapply mk_tree; eauto; [|discriminate]. apply Forall_app. split; auto. apply tree_of_leaf.
      + eapply consumed_trans; [apply (C Hb)|]. unfold all_leaves at 2. cbn [snd]. rewrite flat_map_app. now apply flat_consumed.
    - cbn in H2. inversion H2; subst. exists x. split; auto. split; auto. split; auto. split; [|exact C].
      intros Hb. specialize (G Hb). destruct x as [k ks]. cbn [fst snd]. rewrite <- (app_nil_r ks).
      eapply mk_tree with (rest := []); eauto. now rewrite app_nil_r.
  Qed.

  (** contexts keep their children, their type and their rule *)
  Definition kept (low : nat) (h h' : heap) : Prop :=
    forall i c, (low <= i)%nat -> nth_error h i = Some c ->
      exists c', nth_error h' i = Some c' /\ x_children c' = x_children c /\ x_plain c' = x_plain c /\ x_rule c' = x_rule c.

  Lemma rule_returned_at : forall rule start pl body g p f g' p' f' r, body_ok body -> Forall (generated false) body -> wf p ->
    run_call (CRule rule start pl body) g p f = Val (g', p', f', r) -> ended r ->
    r = None /\ f' = f /\ p_state p' = p_state p /\ exists n T, returned rule body p p' n T /\
      forall p1 g2 p2 f2 r2 g3 p3 r3,
        enter_rule ts (with_heap p (p_heap p ++ [new_parser_ctx (p_ctx p) (p_state p) rule 0 pl])) (length (p_heap p)) start = Val p1 ->
        run_calls body g p1 (Frame (length (p_heap p)) (p_ctx p) (p_state p) start rule) = Val (g2, p2, f2, r2) ->
        catch ts a names fuel g2 p2 r2 = Val (g3, p3, r3) -> n = f_local f2 /\ kept (length (p_heap p)) (p_heap p3) (p_heap p') /\
        exists st0 x, inv false (p_heap p) (p_build p) (p_prec p) st0 f2 x p3 /\ T = Node rule (fst x) (snd x).
  Proof.
    intros rule start pl body g p f g' p' f' r HB HG W H HE. cbn [ParserModel.run_call alloc] in H.
    step H. rename a0 into p1.
    destruct (enter_rule_inv _ _ _ _ _ _ W E) as ((st0 & A1) & L1 & I1).
    match type of H with obindo (?rc body g p1 ?fr) _ = _ => change (rc body g p1 fr) with (run_calls body g p1 fr) in H end.
    step H. destruct a0 as [[[g2 p2] f2] r2]. step H. destruct a0 as [[g3 p3] r3].
    assert (E3 : ended r3) by (destruct r3; [inversion H; subst; auto|exact Logic.I]).
    destruct (body_catch _ _ _ _ _ _ _ _ _ _ _ _ _ _ _ _ HB HG A1 E0 E1 E3) as (-> & x & A3 & SF & L3 & G & C).
    cbn [f_rule] in *. step H. inversion H; subst g' p' f' r. clear H. split; auto. split; auto.
    unfold exit_rule in E2. unfold get_ctx in E2. rewrite (i_ctx _ _ _ _ _ _ _ _ A3) in E2. cbn [unwrap obindo] in E2.
    step E2. destruct a1 as [p4 t]. destruct (lt_same _ _ _ _ E4) as (B1 & B2 & B3 & B4 & B5 & B6 & B7).
    assert (A4 : inv false (p_heap p) (p_build p) (p_prec p) st0 f2 x (modify p4 (f_local f2) (set_stop t))).
    { apply inv_stop. eapply inv_ext; eauto. }
    step E2. rename a1 into p5. destruct (exit_event _ _ E5) as (X1 & X2 & X3 & X4 & X5 & X6 & X7).
    assert (A5 : inv false (p_heap p) (p_build p) (p_prec p) st0 f2 x p5) by (eapply inv_ext; eauto).
    pose proof A5 as [K1 K2 K3 K4 K5 K6 (c & Hc & C1 & C2 & C3 & C4 & C5 & C6) K8].
    unfold deref in E2. rewrite Hc in E2. cbn [unwrap obindo] in E2. inversion E2; subst a0. clear E2.
    destruct SF as (S1 & S2 & S3 & S4). cbn [f_parent f_parent_state f_start f_rule] in *.
    split; [cbn; congruence|]. exists (f_local f2), (Node rule (fst x) (snd x)). split.
    2:{ intros q1 h2 q2 e2 s2 h3 q3 s3 Y1 Y2 Y3. inversion Y1; subst q1. rewrite Y2 in E0. inversion E0; subst.
        rewrite Y3 in E1. inversion E1; subst. split; auto. split; [|eexists _, x; split; [exact A3 | reflexivity]]. cbn [p_heap with_ctx set_state]. rewrite X4. cbn [p_heap modify with_heap]. rewrite B4.
        intros i ci _ Hi. destruct (Nat.eq_dec (f_local f2) i) as [<-|D].
        - eexists. split; [apply nth_update_same; eauto|auto].
        - exists ci. rewrite nth_update_other by auto. auto. }
    constructor; cbn [p_ctx p_build p_prec p_listeners p_heap with_ctx set_state]; auto; try congruence.
    - rewrite X5. cbn. congruence.
    - exists c. repeat split; auto; congruence.
    - intros j Hj. rewrite K8 by auto. unfold attach. cbn [negb]. rewrite andb_true_r. rewrite S1. reflexivity.
    - intros Hb. split; [|split].
      + rewrite <- S4. eapply inv_tree; eauto.
      + auto.
      + change (leaves (Node rule (fst x) (snd x))) with (all_leaves x).
        eapply consumed_trans; [apply consumed_refl; exact I1|]. eapply consumed_trans; [apply (C Hb)|].
        apply consumed_refl. cbn. rewrite X6. cbn. auto.
  Qed.

  Lemma rule_returned : forall rule start pl body g p f g' p' f' r, body_ok body -> Forall (generated false) body -> wf p ->
    run_call (CRule rule start pl body) g p f = Val (g', p', f', r) -> ended r ->
    r = None /\ f' = f /\ p_state p' = p_state p /\ exists n T, returned rule body p p' n T.
  Proof.
    intros rule start pl body g p f g' p' f' r HB HG W H HE.
    destruct (rule_returned_at _ _ _ _ _ _ _ _ _ _ _ HB HG W H HE) as (A & B & C & n & T & D & _). eauto 10.
  Qed.

  Lemma rec_returned_at : forall rule start prec pl body g p f g' p' f' r, body_ok body -> Forall (generated true) body -> wf p ->
    run_call (CRec rule start prec pl body) g p f = Val (g', p', f', r) -> ended r ->
    r = None /\ f' = f /\ exists n T, returned rule body p p' n T /\
      forall p1 g2 p2 f2 r2 g3 p3 r3,
        enter_recursion_rule ts (with_heap p (p_heap p ++ [new_parser_ctx (p_ctx p) (p_state p) rule 0 pl])) (length (p_heap p)) start prec = Val p1 ->
        run_calls body g p1 (Frame (length (p_heap p)) (p_ctx p) (p_state p) start rule) = Val (g2, p2, f2, r2) ->
        catch ts a names fuel g2 p2 r2 = Val (g3, p3, r3) -> n = f_local f2 /\ kept (length (p_heap p)) (p_heap p3) (p_heap p') /\
        exists st0 x, inv true (p_heap p) (p_build p) (p_prec p ++ [prec]) st0 f2 x p3 /\ T = Node rule (fst x) (snd x).
  Proof.
    intros rule start prec pl body g p f g' p' f' r HB HG W H HE. cbn [ParserModel.run_call alloc] in H.
    step H. rename a0 into p1.
    destruct (enter_recursion_inv _ _ _ _ _ _ _ W E) as ((st0 & A1) & L1 & I1).
    match type of H with obindo (?rc body g p1 ?fr) _ = _ => change (rc body g p1 fr) with (run_calls body g p1 fr) in H end.
    step H. destruct a0 as [[[g2 p2] f2] r2]. step H. destruct a0 as [[g3 p3] r3].
    assert (E3 : ended r3) by (destruct r3; [inversion H; subst; auto|exact Logic.I]).
    destruct (body_catch _ _ _ _ _ _ _ _ _ _ _ _ _ _ _ _ HB HG A1 E0 E1 E3) as (-> & x & A3 & SF & L3 & G & C).
    cbn [f_rule] in *. step H. inversion H; subst g' p' f' r. clear H. split; auto. split; auto.
    unfold unroll_recursion_context in E2. unfold get_ctx in E2. cbn [p_ctx with_prec] in E2.
    rewrite (i_ctx _ _ _ _ _ _ _ _ A3) in E2. cbn [unwrap obindo] in E2.
    step E2. destruct a1 as [p4 t]. destruct (lt_same _ _ _ _ E4) as (B1 & B2 & B3 & B4 & B5 & B6 & B7).
    cbn [p_ctx p_build p_prec p_heap p_listeners p_state p_input with_prec] in *.
    rewrite (i_prec _ _ _ _ _ _ _ _ A3), removelast_last in B3.
    assert (A4 : inv true (p_heap p) (p_build p) (p_prec p) st0 f2 x (modify p4 (f_local f2) (set_stop t))).
    { apply inv_stop. eapply inv_ext with (p := with_prec p3 (p_prec p)); auto. destruct A3. constructor; auto. }
    destruct SF as (S1 & S2 & S3 & S4). cbn [f_parent f_parent_state f_start f_rule] in *.
    set (p5 := modify p4 (f_local f2) (set_stop t)) in *.
    pose proof A4 as [K1 K2 K3 K4 K5 K6 (c & Hc & C1 & C2 & C3 & C4 & C5 & C6) K8].
    assert (Hloc : (f_local f2 < length (p_heap p5))%nat) by (apply nth_error_Some; congruence).
    assert (HU : exists p6, (match p_listeners p5 with [] => Val (with_ctx p5 (p_ctx p)) | _ => unroll_loop (length (p_heap p5)) p5 (p_ctx p) end) = Val p6 /\
                 p_ctx p6 = p_ctx p /\ p_build p6 = p_build p5 /\ p_prec p6 = p_prec p5 /\ p_heap p6 = p_heap p5 /\
                 p_listeners p6 = p_listeners p5 /\ p_input p6 = p_input p5).
    { destruct (p_listeners p5) eqn:El.
      - eexists. split; [reflexivity|]. cbn. auto 10.
      - destruct (length (p_heap p5)) as [|m] eqn:Em; [lia|]. cbn [unroll_loop].
        assert (D : same_ctx (p_ctx p5) (p_ctx p) = false).
        { rewrite K1. destruct (p_ctx p) as [j|] eqn:Ej; cbn; auto. apply Nat.eqb_neq. specialize (W j Ej). lia. }
        rewrite D.
        destruct (trigger_exit_rule_event p5) as [p6| |] eqn:E6;
          try solve [unfold trigger_exit_rule_event, get_ctx, deref in E6; rewrite K1 in E6; cbn [unwrap obindo] in E6; rewrite Hc in E6; discriminate].
        destruct (exit_event _ _ E6) as (X1 & X2 & X3 & X4 & X5 & X6 & X7).
        cbn [obindo]. unfold get_ctx, deref. rewrite X1, K1. cbn [unwrap obindo]. rewrite X4, Hc. cbn [unwrap obindo].
        exists (with_ctx p6 (p_ctx p)). split; [|cbn; rewrite X5, El; auto 10].
        rewrite C1, S1. destruct m; cbn [unroll_loop p_ctx with_ctx];
          (replace (same_ctx (p_ctx p) (p_ctx p)) with true by (destruct (p_ctx p); cbn; auto; symmetry; apply Nat.eqb_refl)); auto. }
    destruct HU as (p6 & HU & U1 & U2 & U3 & U4 & U5 & U6).
    rewrite HU in E2. cbn [obindo] in E2.
    set (u := set_parent (p_ctx p6)) in *.
    assert (Hfin : p_ctx a0 = p_ctx p /\ p_build a0 = p_build p /\ p_prec a0 = p_prec p /\ p_listeners a0 = p_listeners p /\ p_input a0 = p_input p4 /\
              p_heap a0 = if p_build p then grow (p_ctx p) [KRule (f_local f2)] (update (p_heap p5) (f_local f2) u) else update (p_heap p5) (f_local f2) u).
    { inversion E2 as [E2']. clear E2 E2'. cbn [p_ctx modify with_heap]. rewrite U1. cbn [p_build modify with_heap]. rewrite U2, K2.
      destruct (p_ctx p) as [j|] eqn:Ej; [destruct (p_build p)|destruct (p_build p)]; cbn [p_ctx p_build p_prec p_listeners p_input p_heap modify with_heap grow];
        rewrite ?U1, ?U2, ?U3, ?U4, ?U5, ?U6; cbn [p_listeners p_input p5 modify with_heap]; repeat split; auto; congruence. }
    clear E2. destruct Hfin as (Q1 & Q2 & Q3 & Q4 & Q5 & Q6).
    assert (Hold : forall j, (j < length (p_heap p))%nat -> nth_error (update (p_heap p5) (f_local f2) u) j = nth_error (p_heap p) j).
    { intros j Hj. rewrite nth_update_other by lia. rewrite K8 by auto. unfold attach. now rewrite andb_false_r. }
    assert (Hhi : forall j, (length (p_heap p) <= j)%nat -> nth_error (p_heap a0) j = nth_error (update (p_heap p5) (f_local f2) u) j).
    { intros j Hj. rewrite Q6. destruct (p_build p); auto. destruct (p_ctx p) as [i|] eqn:Ei; cbn [grow]; auto.
      specialize (W i Ei). rewrite nth_update_other by lia. auto. }
    assert (Hloc' : nth_error (p_heap a0) (f_local f2) = Some (u c)).
    { rewrite Hhi by auto. now apply nth_update_same. }
    exists (f_local f2), (Node rule (fst x) (snd x)). split.
    2:{ intros q1 h2 q2 e2 s2 h3 q3 s3 Y1 Y2 Y3. inversion Y1; subst q1. rewrite Y2 in E0. inversion E0; subst.
        rewrite Y3 in E1. inversion E1; subst. split; auto. split; [|eexists _, x; split; [exact A3 | reflexivity]].
        intros i ci Hlow Hi. rewrite Hhi by auto. unfold p5. cbn [p_heap modify with_heap]. rewrite B4.
        rewrite update_update. destruct (Nat.eq_dec (f_local f2) i) as [<-|D].
        - eexists. split; [apply nth_update_same; eauto|auto].
        - exists ci. rewrite nth_update_other by auto. auto. }
    constructor; auto.
    - assert (f_local f2 < length (p_heap a0))%nat by (apply nth_error_Some; congruence). lia.
    - exists (u c). repeat split; auto; cbn; congruence.
    - intros j Hj. rewrite Q6. destruct (p_build p); auto. destruct (p_ctx p) as [i|] eqn:Ei; cbn [grow]; auto.
      eapply nth_update_agree with (n := length (p_heap p)); auto.
    - intros Hb. split; [|split].
      + rewrite <- S4, <- C3, <- C5. change (x_rule c) with (x_rule (u c)). change (x_kind c) with (x_kind (u c)).
        apply d_rule; auto. eapply Forall2_impl_in; [|apply (C6 Hb)]. apply Forall_forall. intros T _ k. apply denotes_mono.
        intros i [I2 I3] _. split; auto. rewrite Hhi by auto. apply nth_update_other. congruence.
      + auto.
      + change (leaves (Node rule (fst x) (snd x))) with (all_leaves x).
        eapply consumed_trans; [apply consumed_refl; exact I1|]. eapply consumed_trans; [apply (C Hb)|].
        apply consumed_refl. rewrite Q5. auto.
  Qed.

  Lemma rec_returned : forall rule start prec pl body g p f g' p' f' r, body_ok body -> Forall (generated true) body -> wf p ->
    run_call (CRec rule start prec pl body) g p f = Val (g', p', f', r) -> ended r ->
    r = None /\ f' = f /\ exists n T, returned rule body p p' n T.
  Proof.
    intros rule start prec pl body g p f g' p' f' r HB HG W H HE.
    destruct (rec_returned_at _ _ _ _ _ _ _ _ _ _ _ _ HB HG W H HE) as (A & B & n & T & D & _). eauto 10.
  Qed.

  (** ** A called rule seen from its caller *)
  Lemma inv_wf : forall rec h0 b pr st0 f x p, inv rec h0 b pr st0 f x p -> wf p.
  Proof.
    intros rec h0 b pr st0 f x p [A1 A2 A3 A4 A5 A6 (c & Hc & _) A8] i Hi. rewrite A1 in Hi. inversion Hi; subst.
    apply nth_error_Some. congruence.
  Qed.

  Lemma inv_returned : forall rec h0 b pr st0 f x p rule body p' n T, inv rec h0 b pr st0 f x p ->
    returned rule body p p' n T -> inv rec h0 b pr st0 f (fst x, snd x ++ [T]) p'.
  Proof.
    intros rec h0 b pr st0 f x p rule body p' n T A [R1 R2 R3 R4 R5 R6 _ R8 R9].
    destruct A as [A1 A2 A3 A4 A5 A6 (c & Hc & C1 & C2 & C3 & C4 & C5 & C6) A8].
    assert (Hloc : (f_local f < length (p_heap p))%nat) by (apply nth_error_Some; congruence).
    rewrite A2, A1 in R8. cbn [grow] in R8.
    assert (Hoth : forall j, (j < length (p_heap p))%nat -> j <> f_local f -> nth_error (p_heap p') j = nth_error (p_heap p) j).
    { intros j Hj D. rewrite R8 by auto. destruct b; auto. apply nth_update_other. congruence. }
    constructor; try congruence; try lia; auto.
    - exists (if b then add_kids [KRule n] c else c). split; [rewrite R8 by auto; destruct b; auto; now apply nth_update_same|].
      destruct b; cbn [fst snd]; repeat split; auto; try discriminate. intros _.
      cbn [x_children add_kids set_children]. apply Forall2_app.
      + eapply Forall2_impl_in; [|apply (C6 eq_refl)]. apply Forall_forall. intros T' _ k. apply denotes_mono.
        intros i [I1 I2] Hi. split; [split; auto|]. now apply Hoth.
      + constructor; [|constructor]. destruct (R9 A2) as [D _]. eapply denotes_mono; [|exact D].
        intros i Hi _. cbn in Hi. split; auto. split; lia.
    - intros j Hj. rewrite Hoth by lia. auto.
  Qed.

  Lemma simple_ok : forall c, (forall r s pl b, c <> CRule r s pl b) -> (forall r s n pl b, c <> CRec r s n pl b) -> call_ok c.
  Proof.
    intros c N1 N2. destruct c as [s|k| |ty| |inset|n|e|[k|]|k| | |k pl|r s pl b|r s n pl b];
      try solve [apply alt_ok|apply label_ok|apply next_ok]; try solve [exfalso; eapply N1; eauto|exfalso; eapply N2; eauto];
      clear N1 N2; intros rec h0 b pr st0 f x p g g' p' f' r HG A H HE; cbn [ParserModel.run_call] in H.
    - inversion H; subst. apply quiet; auto; try exact Logic.I. eapply inv_ext; eauto.
    - step H. destruct a0 as [q t]. inversion H; subst. unfold la in E. step E. destruct a0 as [q' t']. inversion E; subst.
      destruct (lt_same _ _ _ _ E0) as (B1 & B2 & B3 & B4 & B5 & B6 & B7).
      apply quiet; auto; try exact Logic.I. eapply inv_ext; eauto.
    - unfold no_result in H. step H. destruct a0 as [[g1 p1] r1]. inversion H; subst.
      eapply simple_flat; eauto; try exact Logic.I. eapply sync_flat; eauto.
    - unfold no_tok in H. step H. destruct a0 as [[g1 p1] r1]. inversion H; subst.
      eapply simple_flat; eauto; try exact Logic.I. eapply match_token_flat; eauto.
    - unfold no_tok in H. step H. destruct a0 as [[g1 p1] r1]. inversion H; subst.
      eapply simple_flat; eauto; try exact Logic.I. eapply match_wildcard_flat; eauto.
    - unfold no_result in H. step H. destruct a0 as [[g1 p1] r1]. inversion H; subst.
      eapply simple_flat; eauto; try exact Logic.I. eapply match_set_flat; eauto.
    - destruct (precpred p n).
      + inversion H; subst. apply quiet; auto; exact Logic.I.
      + step H. inversion H; subst. exists x. split; auto. split; [apply same_frame_refl|]. split; auto.
        split; intros _; [exists []; split; [constructor|symmetry; apply content_nil]|apply consumed_refl; auto].
    - inversion H; subst. exists x. split; auto. split; [apply same_frame_refl|]. split; auto.
      split; intros _; [exists []; split; [constructor|symmetry; apply content_nil]|apply consumed_refl; auto].
    - step H. inversion H; subst. cbn [enter_outer_alt obindo] in E.
      destruct (enter_event _ _ E) as (B1 & B2 & B3 & B4 & B5 & B6 & _).
      apply quiet; auto; try (rewrite B6; solve [auto]); try exact Logic.I. eapply inv_ext; eauto.
    - step H. destruct a0 as [q t]. destruct (lt_same _ _ _ _ E) as (B1 & B2 & B3 & B4 & B5 & B6 & B7).
      assert (A1 : inv rec h0 b pr st0 f x q) by (eapply inv_ext; eauto).
      unfold get_ctx in H. rewrite (i_ctx _ _ _ _ _ _ _ _ A1) in H. cbn [unwrap obindo] in H. inversion H; subst.
      apply quiet; auto; try exact Logic.I. now apply inv_stop.
    - step H. inversion H; subst. destruct (exit_event _ _ E) as (B1 & B2 & B3 & B4 & B5 & B6 & _).
      apply quiet; auto; try (rewrite B6; solve [auto]); try exact Logic.I. eapply inv_ext; eauto.
  Qed.

  Lemma generated_forall : forall rec body, fold_right (fun c P => generated rec c /\ P) True body <-> Forall (generated rec) body.
  Proof.
    intros rec body. induction body as [|c body IH]; cbn; split; intros H; auto.
    - constructor; [tauto|apply IH; tauto].
    - inversion H; subst. split; auto. now apply IH.
  Qed.

  Lemma all_ok : forall c, call_ok c.
  Proof.
    induction c as [c N1 N2|rule s pl body IH|rule s n pl body IH] using call_ind'.
    - now apply simple_ok.
    - intros rec h0 b pr st0 f x p g g' p' f' r HG A H HE. cbn [generated] in HG. apply generated_forall in HG.
      destruct (rule_returned _ _ _ _ _ _ _ _ _ _ _ (body_from_calls _ IH) HG (inv_wf _ _ _ _ _ _ _ _ A) H HE) as (-> & -> & _ & m & T & R).
      exists (fst x, snd x ++ [T]). split; [eapply inv_returned; eauto|]. split; [apply same_frame_refl|]. split; [apply (r_listeners _ _ _ _ _ _ R)|].
      pose proof (r_tree _ _ _ _ _ _ R) as RT. rewrite (i_build _ _ _ _ _ _ _ _ A) in RT. split; intros Hb; destruct (RT Hb) as (D & M & C).
      + destruct x. now apply g_rule.
      + unfold all_leaves. cbn [snd]. rewrite flat_map_app. cbn [flat_map]. rewrite app_nil_r.
        intros HI. destruct (C HI) as (I1 & t1 & e1 & n1 & P1 & P2 & P3 & P4). cbn in P2. subst n1. split; auto. exists t1, e1, (leaves T). auto.
    - intros rec h0 b pr st0 f x p g g' p' f' r HG A H HE. cbn [generated] in HG. apply generated_forall in HG.
      destruct (rec_returned _ _ _ _ _ _ _ _ _ _ _ _ (body_from_calls _ IH) HG (inv_wf _ _ _ _ _ _ _ _ A) H HE) as (-> & -> & m & T & R).
      exists (fst x, snd x ++ [T]). split; [eapply inv_returned; eauto|]. split; [apply same_frame_refl|]. split; [apply (r_listeners _ _ _ _ _ _ R)|].
      pose proof (r_tree _ _ _ _ _ _ R) as RT. rewrite (i_build _ _ _ _ _ _ _ _ A) in RT. split; intros Hb; destruct (RT Hb) as (D & M & C).
      + destruct x. now apply g_rec.
      + unfold all_leaves. cbn [snd]. rewrite flat_map_app. cbn [flat_map]. rewrite app_nil_r.
        intros HI. destruct (C HI) as (I1 & t1 & e1 & n1 & P1 & P2 & P3 & P4). cbn in P2. subst n1. split; auto. exists t1, e1, (leaves T). auto.
  Qed.

  Lemma all_bodies_ok : forall body, body_ok body.
  Proof. intros. apply body_from_calls. apply Forall_forall. intros. apply all_ok. Qed.
End Run.
