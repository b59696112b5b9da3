(** Proofs about the trees and events of the parser driver. *)
From Coq Require Import ZArith List Bool Lia.
From Verif Require Import Outcome IntervalSetModel DfaModel AtnModel Ll1Model ParserModel ParserSpec.
Import ListNotations.
Local Open Scope Z_scope.
Local Open Scope outcome_scope.

(** ** Heaps *)
Lemma update_length : forall h i f, length (update h i f) = length h.
Proof. induction h as [|c h IH]; intros [|i] f; cbn; auto. Qed.

Lemma nth_update_same : forall h i f c, nth_error h i = Some c -> nth_error (update h i f) i = Some (f c).
Proof. induction h as [|x h IH]; intros [|i] f c H; cbn in *; try easy; [congruence|auto]. Qed.

Lemma nth_update_other : forall h i j f, i <> j -> nth_error (update h i f) j = nth_error h j.
Proof. induction h as [|x h IH]; intros [|i] [|j] f H; cbn; try easy. apply IH. congruence. Qed.

Lemma update_none : forall h i f, nth_error h i = None -> update h i f = h.
Proof. induction h as [|x h IH]; intros [|i] f H; cbn in *; try easy. now rewrite IH. Qed.

Lemma update_update : forall h i f g, update (update h i f) i g = update h i (fun c => g (f c)).
Proof. induction h as [|x h IH]; intros [|i] f g; cbn; auto. now rewrite IH. Qed.

Lemma update_ext : forall h i f g, (forall c, nth_error h i = Some c -> f c = g c) -> update h i f = update h i g.
Proof. induction h as [|x h IH]; intros [|i] f g H; cbn; auto; f_equal; auto. Qed.

Lemma update_id : forall h i, update h i (fun c => c) = h.
Proof. induction h as [|x h IH]; intros [|i]; cbn; auto. now rewrite IH. Qed.

Definition add_kids (ks : list kid) (c : rctx) : rctx := set_children (x_children c ++ ks) c.
Definition grow (ctx : option nat) (ks : list kid) (h : heap) : heap :=
  match ctx with Some i => update h i (add_kids ks) | None => h end.

Lemma add_kids_nil : forall c, add_kids [] c = c.
Proof. intros []; unfold add_kids, set_children; cbn. now rewrite app_nil_r. Qed.
Lemma add_kids_add : forall ks ks' c, add_kids ks' (add_kids ks c) = add_kids (ks ++ ks') c.
Proof. intros ks ks' []; unfold add_kids, set_children; cbn. now rewrite app_assoc. Qed.
Lemma grow_nil : forall x h, grow x [] h = h.
Proof.
  intros [i|] h; cbn; auto. rewrite <- (update_id h i) at 2. apply update_ext. intros. apply add_kids_nil.
Qed.
Lemma grow_grow : forall x ks ks' h, grow x ks' (grow x ks h) = grow x (ks ++ ks') h.
Proof.
  intros [i|] ks ks' h; cbn; auto. rewrite update_update. apply update_ext. intros. apply add_kids_add.
Qed.

(** ** What calls that do not open or close rules do *)
Inductive act : Type := Took (t : tok) (err : bool) | Saw (t : tok) (err : bool) | Conjured (t : tok).
Definition kid_of (x : act) : kid :=
  match x with
  | Took t e | Saw t e => if e then KErr t else KTerm t
  | Conjured t => KErr t
  end.
Definition took (x : act) : list tok := match x with Took t _ => [t] | _ => [] end.
Definition visit_of (x : act) : list event :=
  match x with
  | Took t e | Saw t e => [if e then VisitError t else VisitTerminal t]
  | Conjured _ => []
  end.
Definition act_ok (x : act) : Prop :=
  match x with Took _ _ => True | Saw t _ => t_type t = -1 | Conjured t => t_index t = -1 end.

Section Flat.
  Context {S : Type}.
  Variable ts : stream_ops S.
  Variable a : atn.
  Variable names : naming.
  Variable fuel : nat.
  Variable Inv : S -> Prop.
  Variable past : S -> list tok.
  Hypothesis Hist : history ts Inv past.

  Definition showing (p : parser S) : bool :=
    p_build p || negb (match p_listeners p with [] => true | _ => false end).
  Definition kids_of (p : parser S) (acts : list act) : list kid := if showing p then map kid_of acts else [].

  Record flat (acts : list act) (p p' : parser S) : Prop := Flat {
    fl_ctx : p_ctx p' = p_ctx p;
    fl_build : p_build p' = p_build p;
    fl_state : p_state p' = p_state p;
    fl_prec : p_prec p' = p_prec p;
    fl_listeners : p_listeners p' = p_listeners p;
    fl_heap : p_heap p' = grow (p_ctx p) (kids_of p acts) (p_heap p);
    fl_events : p_events p' = p_events p ++ flat_map (told (p_listeners p)) (flat_map visit_of acts);
    fl_past : Inv (p_input p) -> Inv (p_input p') /\ past (p_input p') = past (p_input p) ++ flat_map took acts;
    fl_ok : Forall act_ok acts
  }.

  Lemma kids_of_app : forall p x y, kids_of p (x ++ y) = kids_of p x ++ kids_of p y.
  Proof. intros. unfold kids_of. destruct (showing p); auto. apply map_app. Qed.

  Lemma flat_refl : forall p, flat [] p p.
  Proof.
    intros p. constructor; auto; cbn; try now rewrite app_nil_r.
    - unfold kids_of. destruct (showing p); cbn; now rewrite grow_nil.
  Qed.

  Lemma flat_trans : forall x y p q r, flat x p q -> flat y q r -> flat (x ++ y) p r.
  Proof.
    intros x y p q r [A1 A2 A3 A4 A5 A6 A7 A8 A9] [B1 B2 B3 B4 B5 B6 B7 B8 B9]. constructor; try congruence.
    - rewrite B6, A1, A6, grow_grow, kids_of_app. unfold kids_of, showing. now rewrite A2, A5.
    - rewrite B7, A7, A5. rewrite flat_map_app, flat_map_app, app_assoc. reflexivity.
    - intros HI. destruct (A8 HI) as [I1 P1]. destruct (B8 I1) as [I2 P2]. split; auto.
      rewrite P2, P1, flat_map_app, app_assoc. reflexivity.
    - apply Forall_app; auto.
  Qed.

  Definition flat_ex (p p' : parser S) : Prop := exists acts, flat acts p p'.
  Lemma flat_ex_refl : forall p, flat_ex p p.
  Proof. intros. exists []. apply flat_refl. Qed.
  Lemma flat_ex_trans : forall p q r, flat_ex p q -> flat_ex q r -> flat_ex p r.
  Proof. intros p q r [x Hx] [y Hy]. exists (x ++ y). eapply flat_trans; eauto. Qed.

  Ltac step H := match type of H with obindo ?x _ = Val _ => let E := fresh "E" in destruct x eqn:E; cbn [obindo] in H; [|discriminate|discriminate] end.
  Ltac pairs H := repeat match type of H with context [match ?x with (_, _) => _ end] => destruct x end.

  Lemma with_input_flat : forall p s, (Inv (p_input p) -> Inv s /\ past s = past (p_input p)) -> flat [] p (with_input p s).
  Proof.
    intros p s H. constructor; cbn; auto; try now rewrite app_nil_r.
    - unfold kids_of. destruct (showing p); cbn; now rewrite grow_nil.
  Qed.
  Lemma lt_flat : forall p k p' t, lt ts p k = Val (p', t) -> flat [] p p'.
  Proof.
    intros p k p' t H. unfold lt in H. destruct (s_lt ts (p_input p) k) as [[s t']| |] eqn:E; cbn [obindo] in H; try discriminate.
    inversion H; subst. apply with_input_flat. intros HI. eapply h_lt; eauto.
  Qed.
  Lemma la_flat : forall p k p' t, la ts p k = Val (p', t) -> flat [] p p'.
  Proof.
    intros p k p' t H. unfold la in H. destruct (lt ts p k) as [[q o]| |] eqn:E; cbn [obindo] in H; try discriminate.
    inversion H; subst. eapply lt_flat; eauto.
  Qed.
  Lemma notice_flat : forall p n, flat [] p (with_notice p n).
  Proof.
    intros p n. constructor; cbn; auto; try now rewrite app_nil_r.
    - unfold kids_of. destruct (showing p); cbn; now rewrite grow_nil.
  Qed.
  Lemma notify_flat : forall p m o e p', notify_error_listeners ts p m o e = Val p' -> flat [] p p'.
  Proof.
    intros p m o e p' H. unfold notify_error_listeners in H. step H. inversion H; subst. apply notice_flat.
  Qed.
  Lemma eof_flat : forall p, flat [] p (with_eof p).
  Proof.
    intros p. constructor; cbn; auto; try now rewrite app_nil_r.
    - unfold kids_of. destruct (showing p); cbn; now rewrite grow_nil.
  Qed.

  (** [consume]: one node for the current token; it is taken from the input unless it is EOF *)
  Lemma consume_flat : forall rec p p', consume ts rec p = Val p' ->
    exists t, get_current_token ts p = Val t /\
      flat [if t_type t =? -1 then Saw t rec else Took t rec] p p'.
  Proof.
    intros rec p p' H. unfold consume in H.
    destruct (get_current_token ts p) as [t| |] eqn:Et; cbn [obindo] in H; try discriminate.
    exists t. split; auto.
    assert (Hq : exists q, (if t_type t =? TOKEN_EOF then Val p
                  else let! s := s_consume ts (p_input p) in Val (with_input p s)) = Val q /\
              p_ctx q = p_ctx p /\ p_build q = p_build p /\ p_state q = p_state p /\ p_prec q = p_prec p /\
              p_listeners q = p_listeners p /\ p_heap q = p_heap p /\ p_events q = p_events p /\
              (Inv (p_input p) -> Inv (p_input q) /\
                 past (p_input q) = past (p_input p) ++ (if t_type t =? -1 then [] else [t]))).
    { change TOKEN_EOF with (-1) in *. destruct (t_type t =? -1).
      - exists p. repeat (split; [reflexivity|]). intros HI. now rewrite app_nil_r.
      - destruct (s_consume ts (p_input p)) as [s| |] eqn:Es; cbn [obindo] in *; try discriminate.
        exists (with_input p s). repeat (split; [reflexivity|]). intros HI. exact (h_consume _ _ _ Hist _ _ _ HI Et Es). }
    destruct Hq as (q & Eq & Q1 & Q2 & Q3 & Q4 & Q5 & Q6 & Q7 & Q8). rewrite Eq in H. cbn [obindo] in H. clear Eq.
    assert (Hs : p_build q || negb (match p_listeners q with [] => true | _ => false end) = showing p).
    { unfold showing. now rewrite Q2, Q5. }
    rewrite Hs in H.
    set (x := if t_type t =? -1 then Saw t rec else Took t rec).
    assert (Hk : kid_of x = if rec then KErr t else KTerm t) by (subst x; destruct (t_type t =? -1); auto).
    assert (Hv : visit_of x = [if rec then VisitError t else VisitTerminal t]) by (subst x; destruct (t_type t =? -1); auto).
    assert (Ht : took x = if t_type t =? -1 then [] else [t]) by (subst x; destruct (t_type t =? -1); auto).
    assert (Ho : act_ok x) by (subst x; destruct (t_type t =? -1) eqn:E; cbn; auto; lia).
    destruct (showing p) eqn:Esh.
    - unfold get_ctx in H. rewrite Q1 in H. destruct (p_ctx p) as [c|] eqn:Ec; cbn [unwrap obindo] in H; try discriminate.
      destruct rec; inversion H; subst p'; clear H; constructor; cbn; rewrite ?app_nil_r; auto; try congruence;
        try (rewrite Hk); try (rewrite Hv); try (rewrite Ht); cbn; rewrite ?app_nil_r; auto; try congruence;
        rewrite ?Q6, ?Q7, ?Q5, ?Ec; unfold kids_of; rewrite ?Esh; cbn; rewrite ?Hk; auto.
    - inversion H; subst p'. assert (Hl : p_listeners p = []).
      { unfold showing in Esh. destruct (p_listeners p); auto. destruct (p_build p); discriminate. }
      constructor; cbn; rewrite ?app_nil_r; auto; try congruence; try (rewrite Ht); auto.
      + unfold kids_of. rewrite Esh, grow_nil. auto.
      + rewrite Hv, Hl. cbn. destruct rec; cbn; rewrite app_nil_r; auto.
  Qed.
  Lemma consume_flat_ex : forall rec p p', consume ts rec p = Val p' -> flat_ex p p'.
  Proof. intros. destruct (consume_flat _ _ _ H) as (t & _ & F). eexists; eauto. Qed.

  Lemma flat_ex_nil : forall p q, flat [] p q -> flat_ex p q.
  Proof. intros. eexists; eauto. Qed.
  Hint Resolve flat_ex_refl eof_flat : flatr.
  Hint Resolve flat_ex_nil lt_flat la_flat notify_flat consume_flat_ex : flat.

  Lemma report_token_flat : forall msg d p d' p', report_token ts a fuel msg d p = Val (d', p') -> flat_ex p p'.
  Proof.
    intros msg d p d' p' H. unfold report_token in H. destruct (recovering d); [inversion H; subst; auto with flat flatr|].
    step H. step H. step H. inversion H; subst. eauto with flat.
  Qed.
  Lemma insertion_flat : forall d p d' p' b, single_token_insertion ts a names fuel d p = Val (d', p', b) -> flat_ex p p'.
  Proof.
    intros d p d' p' b H. unfold single_token_insertion in H.
    destruct (la ts p 1) as [[q cur]| |] eqn:E1; cbn [obindo] in H; try discriminate.
    do 6 step H. eapply flat_ex_trans; [eauto with flat|].
    destruct (contains _ _).
    - unfold report_missing_token in H. destruct (report_token ts a fuel _ d q) as [[d1 q1]| |] eqn:E7; cbn [obindo] in H; try discriminate.
      inversion H; subst. eapply report_token_flat; eauto.
    - inversion H; subst. auto with flat flatr.
  Qed.
  Lemma deletion_flat : forall d p d' p' t, single_token_deletion ts a names fuel d p = Val (d', p', t) -> flat_ex p p'.
  Proof.
    intros d p d' p' t H. unfold single_token_deletion in H.
    destruct (la ts p 2) as [[q cur]| |] eqn:E1; cbn [obindo] in H; try discriminate.
    step H. eapply flat_ex_trans; [eauto with flat|].
    destruct (contains _ _).
    - unfold report_unwanted_token in H. destruct (report_token ts a fuel _ d q) as [[d1 q1]| |] eqn:E7; cbn [obindo] in H; try discriminate.
      step H. step H. inversion H; subst. eapply flat_ex_trans; [eapply report_token_flat; eauto|eauto with flat].
    - inversion H; subst. auto with flat flatr.
  Qed.
  Lemma consume_loop_flat : forall n rec set p ty p', consume_loop ts n rec set p ty = Val p' -> flat_ex p p'.
  Proof.
    induction n as [|n IH]; intros rec set p ty p' H; cbn [consume_loop] in H; destruct (_ && _); try discriminate;
      try (inversion H; subst; auto with flat flatr; fail).
    destruct (consume ts rec p) as [q| |] eqn:E; cbn [obindo] in H; try discriminate.
    destruct (la ts q 1) as [[q1 ty1]| |] eqn:E1; cbn [obindo] in H; try discriminate.
    eapply flat_ex_trans; [eauto with flat|]. eapply flat_ex_trans; [eauto with flat|]. eauto.
  Qed.
  Lemma consume_until_flat : forall d p set p', consume_until ts fuel d p set = Val p' -> flat_ex p p'.
  Proof.
    intros d p set p' H. unfold consume_until in H.
    destruct (la ts p 1) as [[q ty]| |] eqn:E; cbn [obindo] in H; try discriminate.
    eapply flat_ex_trans; [eauto with flat|]. eapply consume_loop_flat; eauto.
  Qed.
  Lemma d_recover_inline_flat : forall d p d' p' r, d_recover_inline ts a names fuel d p = Val (d', p', r) -> flat_ex p p'.
  Proof.
    intros d p d' p' r H. unfold d_recover_inline in H.
    destruct (single_token_deletion ts a names fuel d p) as [[[d1 q] t]| |] eqn:E; cbn [obindo] in H; try discriminate.
    pose proof (deletion_flat _ _ _ _ _ E). eapply flat_ex_trans; [eauto|].
    destruct t as [t|].
    - step H. inversion H; subst. eauto with flat.
    - destruct (single_token_insertion ts a names fuel d1 q) as [[[d2 q2] b]| |] eqn:E2; cbn [obindo] in H; try discriminate.
      pose proof (insertion_flat _ _ _ _ _ E2). destruct b; step H; inversion H; subst; auto.
  Qed.
  Lemma d_recover_flat : forall d p d' p', d_recover ts a fuel d p = Val (d', p') -> flat_ex p p'.
  Proof.
    intros d p d' p' H. unfold d_recover in H. step H. step H. step H. inversion H; subst.
    assert (flat_ex p a0). { destruct (_ && _); [eauto with flat|inversion E; subst; auto with flat flatr]. }
    eapply flat_ex_trans; [eauto|]. eapply consume_until_flat; eauto.
  Qed.
  Lemma d_sync_flat : forall d p d' p' r, d_sync ts a names fuel d p = Val (d', p', r) -> flat_ex p p'.
  Proof.
    intros d p d' p' r H. unfold d_sync in H. destruct (recovering d); [inversion H; subst; auto with flat flatr|].
    destruct (la ts p 1) as [[q next]| |] eqn:E; cbn [obindo] in H; try discriminate.
    step H. step H. eapply flat_ex_trans; [eauto with flat|].
    destruct (contains a1 next); [inversion H; subst; auto with flat flatr|].
    destruct (contains a1 TOKEN_EPSILON).
    { destruct (nt_ctx d); [inversion H; subst; auto with flat flatr|]. step H. inversion H; subst. auto with flat flatr. }
    destruct (sync_case _); try discriminate.
    - destruct (single_token_deletion ts a names fuel d q) as [[[d1 q1] t]| |] eqn:E3; cbn [obindo] in H; try discriminate.
      pose proof (deletion_flat _ _ _ _ _ E3). destruct t; [|step H]; inversion H; subst; auto.
    - unfold report_unwanted_token in H.
      destruct (report_token ts a fuel _ d q) as [[d1 q1]| |] eqn:E3; cbn [obindo] in H; try discriminate.
      step H. step H. step H. inversion H; subst. eapply flat_ex_trans; [eapply report_token_flat; eauto|].
      eapply consume_until_flat; eauto.
  Qed.
  Lemma d_report_error_flat : forall d p e d' p', d_report_error ts a names fuel d p e = Val (d', p') -> flat_ex p p'.
  Proof.
    intros d p e d' p' H. unfold d_report_error in H. destruct (recovering d); [inversion H; subst; auto with flat flatr|].
    step H. step H. inversion H; subst. eauto with flat.
  Qed.

  Lemma recover_inline_flat : forall g p g' p' r, recover_inline ts a names fuel g p = Val (g', p', r) -> flat_ex p p'.
  Proof.
    intros g p g' p' r H. destruct g as [d|d]; cbn [recover_inline] in H.
    - destruct (d_recover_inline ts a names fuel d p) as [[[d1 q] r1]| |] eqn:E; cbn [obindo] in H; try discriminate.
      inversion H; subst. eapply d_recover_inline_flat; eauto.
    - step H. step H. inversion H; subst. auto with flat flatr.
  Qed.
  Lemma recover_flat : forall g p e g' p' r, recover ts a fuel g p e = Val (g', p', r) -> flat_ex p p'.
  Proof.
    intros g p e g' p' r H. destruct g as [d|d]; cbn [recover] in H.
    - destruct (d_recover ts a fuel d p) as [[d1 q]| |] eqn:E; cbn [obindo] in H; try discriminate.
      inversion H; subst. eapply d_recover_flat; eauto.
    - step H. inversion H; subst. auto with flat flatr.
  Qed.
  Lemma sync_flat : forall g p g' p' r, sync ts a names fuel g p = Val (g', p', r) -> flat_ex p p'.
  Proof.
    intros g p g' p' r H. destruct g as [d|d]; cbn [sync] in H; [|inversion H; subst; auto with flat flatr].
    destruct (d_sync ts a names fuel d p) as [[[d1 q] r1]| |] eqn:E; cbn [obindo] in H; try discriminate.
    inversion H; subst. eapply d_sync_flat; eauto.
  Qed.
  Lemma report_error_flat : forall g p e g' p', report_error ts a names fuel g p e = Val (g', p') -> flat_ex p p'.
  Proof.
    intros g p e g' p' H. destruct g as [d|d]; cbn [report_error] in H;
      destruct (d_report_error ts a names fuel d p e) as [[d1 q]| |] eqn:E; cbn [obindo] in H; try discriminate;
      inversion H; subst; eapply d_report_error_flat; eauto.
  Qed.
  Lemma catch_flat : forall g p r g' p' r', catch ts a names fuel g p r = Val (g', p', r') -> flat_ex p p'.
  Proof.
    intros g p r g' p' r' H. unfold catch in H.
    destruct r as [e|]; [|inversion H; subst; auto with flat flatr].
    destruct e; try (inversion H; subst; auto with flat flatr; fail);
      match type of H with (let! _ := report_error ts a names fuel g p ?e in _) = _ =>
        destruct (report_error ts a names fuel g p e) as [[g1 q]| |] eqn:E; cbn [obindo] in H; try discriminate end;
      (eapply flat_ex_trans; [eapply report_error_flat; eauto|eapply recover_flat; eauto]).
  Qed.

  Lemma add_missing_flat : forall p t p', add_missing p t = Val p' -> flat_ex p p'.
  Proof.
    intros p t p' H. unfold add_missing in H. destruct (p_build p && (t_index t =? -1)) eqn:E; [|inversion H; subst; auto with flat flatr].
    apply andb_prop in E as [Eb Ei]. unfold get_ctx in H. destruct (p_ctx p) as [c|] eqn:Ec; cbn in H; try discriminate.
    inversion H; subst. exists [Conjured t]. constructor; cbn; auto; rewrite ?app_nil_r; auto.
    - rewrite Ec. unfold kids_of, showing. rewrite Eb. cbn. reflexivity.
    - constructor; cbn; auto. lia.
  Qed.
  Lemma match_token_flat : forall g p ty g' p' r, match_token ts a names fuel g p ty = Val (g', p', r) -> flat_ex p p'.
  Proof.
    intros g p ty g' p' r H. unfold match_token in H. step H.
    destruct (_ =? ty).
    - step H. inversion H; subst. eapply flat_ex_trans; [|eauto with flat]. destruct (_ =? _); auto with flat flatr.
    - destruct (recover_inline ts a names fuel g p) as [[[g1 q] r1]| |] eqn:E1; cbn [obindo] in H; try discriminate.
      pose proof (recover_inline_flat _ _ _ _ _ E1). destruct r1; [step H|]; inversion H; subst; auto.
      eapply flat_ex_trans; [eauto|eapply add_missing_flat; eauto].
  Qed.
  Lemma match_wildcard_flat : forall g p g' p' r, match_wildcard ts a names fuel g p = Val (g', p', r) -> flat_ex p p'.
  Proof.
    intros g p g' p' r H. unfold match_wildcard in H. step H.
    destruct (_ >? 0).
    - step H. inversion H; subst. eauto with flat.
    - destruct (recover_inline ts a names fuel g p) as [[[g1 q] r1]| |] eqn:E1; cbn [obindo] in H; try discriminate.
      pose proof (recover_inline_flat _ _ _ _ _ E1). destruct r1; [step H|]; inversion H; subst; auto.
      eapply flat_ex_trans; [eauto|eapply add_missing_flat; eauto].
  Qed.
  Lemma match_set_flat : forall i g p g' p' r, match_set ts a names fuel i g p = Val (g', p', r) -> flat_ex p p'.
  Proof.
    intros i g p g' p' r H. unfold match_set in H.
    destruct (la ts p 1) as [[q next]| |] eqn:E; cbn [obindo] in H; try discriminate.
    eapply flat_ex_trans; [eauto with flat|]. destruct (i next).
    - destruct (la ts q 1) as [[q1 next1]| |] eqn:E1; cbn [obindo] in H; try discriminate. step H. inversion H; subst.
      eapply flat_ex_trans; [eauto with flat|]. eapply flat_ex_trans; [|eauto with flat]. destruct (_ =? _); auto with flat flatr.
    - destruct (recover_inline ts a names fuel g q) as [[[g1 q1] r1]| |] eqn:E1; cbn [obindo] in H; try discriminate.
      inversion H; subst. eapply recover_inline_flat; eauto.
  Qed.

  (** [catch] only lets cancellations through *)
  Lemma catch_result : forall g p r g' p' e, catch ts a names fuel g p r = Val (g', p', Some e) -> exists c, e = FallThrough c.
  Proof.
    intros g p r g' p' e H. unfold catch in H. destruct r as [r|]; [|discriminate].
    assert (Hr : forall x, (let! (g1, p1) := report_error ts a names fuel g p x in recover ts a fuel g1 p1 x) = Val (g', p', Some e) ->
                 exists c, e = FallThrough c).
    { intros x Hx. destruct (report_error ts a names fuel g p x) as [[g1 q]| |]; cbn [obindo] in Hx; try discriminate.
      destruct g1 as [d|d]; cbn [recover] in Hx.
      - destruct (d_recover ts a fuel d q) as [[d1 q1]| |]; cbn [obindo] in Hx; discriminate.
      - unfold process_error in Hx. destruct (get_ctx q); cbn [obindo] in Hx; try discriminate. inversion Hx; eauto. }
    destruct r; try (eapply Hr; eauto; fail). inversion H; eauto.
  Qed.
End Flat.
