(** Trees in which every operation has the operands it should have: there is one, and only
    one, for a given expression (C101). *)
From Coq Require Import ZArith List Bool Lia.
From Verif Require Import Outcome IntervalSetModel AtnModel AtnSpec Ll1Model Ll1Spec ParserModel ParserSpec RecSpec OperatorSpec OrderSpec OrderTreeProofs.
Import ListNotations.
Local Open Scope Z_scope.

Section Unique.
  Variable rule : Z.
  Variable level : Z -> option Z.
  Variable operand : Z -> Z.
  Variable prefix : Z -> Z.
  Notation open_end := (open_end rule).
  Notation parts := (parts rule).
  Notation left_edge := (left_edge rule).
  Notation right_edge := (right_edge rule operand prefix).
  Notation nested := (nested rule level operand prefix).
  Notation spelled := (spelled rule).
  Notation binds := (binds level).

  Lemma nested_child r k kids c : nested (Node r k kids) -> In c kids -> nested c.
  Proof. intros N I t l o t' W Op. eapply N; [eapply within_child; eauto | exact Op]. Qed.

  (** reading an expression by the levels of its operators, from left to right *)
  Definition stops (q : Z) (w : list item) : Prop :=
    match w with Infix _ o _ :: _ | Suffix _ o _ :: _ => ~ binds q (t_type o) | _ => True end.
  Inductive reads : Z -> list item -> tree -> list item -> Prop :=
  | rd_operand : forall q t w T R, goes q t w T R -> reads q (Operand t :: w) T R
  | rd_prefix : forall q k o m w r R1 T R, reads (prefix (t_type o)) w r R1 -> goes q (Node rule k (Leaf o :: m ++ [r])) R1 T R -> reads q (Prefix k o m :: w) T R
  with goes : Z -> tree -> list item -> tree -> list item -> Prop :=
  | go_stop : forall q t w, stops q w -> goes q t w t w
  | go_infix : forall q t k o m w r R1 T R, binds q (t_type o) -> reads (operand (t_type o)) w r R1 -> goes q (Node rule k (t :: Leaf o :: m ++ [r])) R1 T R -> goes q t (Infix k o m :: w) T R
  | go_suffix : forall q t k o m w T R, binds q (t_type o) -> goes q (Node rule k (t :: Leaf o :: m)) w T R -> goes q t (Suffix k o m :: w) T R.
  Scheme reads_ind2 := Minimality for reads Sort Prop with goes_ind2 := Minimality for goes Sort Prop.
  Combined Scheme reads_goes_ind from reads_ind2, goes_ind2.

  Lemma one_reading : (forall q w T R, reads q w T R -> forall T' R', reads q w T' R' -> T' = T /\ R' = R) /\
    (forall q t w T R, goes q t w T R -> forall T' R', goes q t w T' R' -> T' = T /\ R' = R).
  Proof.
    apply reads_goes_ind.
    - intros q t w T R _ IH T' R' H. inversion H; subst. apply IH. assumption.
    - intros q k o m w r R1 T R _ IH1 _ IH T' R' H. inversion H as [|? ? ? ? ? r' R1' ? ? H1 H2]; subst. destruct (IH1 _ _ H1) as (-> & ->). apply IH, H2.
    - intros q t w St T' R' H. inversion H; subst; [auto| |]; contradiction.
    - intros q t k o m w r R1 T R B _ IH1 _ IH T' R' H. inversion H as [? ? ? St|? ? ? ? ? ? r' R1' ? ? B' H1 H2|]; subst; [destruct (St B)|]. destruct (IH1 _ _ H1) as (-> & ->). apply IH, H2.
    - intros q t k o m w T R B _ IH T' R' H. inversion H as [? ? ? St| |? ? ? ? ? ? ? ? B' H2]; subst; [destruct (St B)|]. apply IH, H2.
  Qed.

  Lemma prefix_parts k o m kr lr : parts (Node rule k (Leaf o :: m ++ [Node rule kr lr])) None o (Some (Node rule kr lr)).
  Proof. constructor. rewrite open_app, Z.eqb_refl. reflexivity. Qed.
  Lemma infix_parts k kl ll o m kr lr : parts (Node rule k (Node rule kl ll :: Leaf o :: m ++ [Node rule kr lr])) (Some (Node rule kl ll)) o (Some (Node rule kr lr)).
  Proof.
    assert (E : open_end (m ++ [Node rule kr lr]) = Some (Node rule kr lr)) by (rewrite open_app, Z.eqb_refl; reflexivity).
    rewrite <- E. apply (pa_infix rule k kl ll o (m ++ [Node rule kr lr])).
  Qed.
  Lemma suffix_parts k kl ll o m : open_end m = None -> parts (Node rule k (Node rule kl ll :: Leaf o :: m)) (Some (Node rule kl ll)) o None.
  Proof. intros <-. constructor. Qed.

  (** a tree with the right operands is what is read *)
  Lemma nested_reads : forall t u, spelled t u -> nested t -> forall q w, (forall z, left_edge t z -> binds q z) -> (forall p, right_edge t p -> stops p w) ->
    forall T R, goes q t w T R -> reads q (u ++ w) T R.
  Proof.
    induction 1 as [t N|k o m kr lr v Sr IHr|k kl ll o m kr lr u v Sl IHl Sr IHr|k kl ll o m u Sl IHl Eo]; intros Ne q w Le Ri T R Go.
    - apply rd_operand, Go.
    - pose proof (prefix_parts k o m kr lr) as P. destruct (Ne _ _ _ _ (within_here _) P) as (_ & Y). cbn [app].
      eapply rd_prefix; [|exact Go]. apply IHr.
      + eapply nested_child; [exact Ne|]. right. apply in_or_app. right. left. reflexivity.
      + intros z Lz. exact (Y _ eq_refl z Lz).
      + intros p Rp. apply Ri. eapply right_down; eauto.
      + apply go_stop, Ri. exact (right_here _ _ _ _ _ _ _ P).
    - pose proof (infix_parts k kl ll o m kr lr) as P. destruct (Ne _ _ _ _ (within_here _) P) as (X & Y). destruct (X _ eq_refl) as (_ & C).
      rewrite <- app_assoc. cbn [app]. apply IHl.
      + eapply nested_child; [exact Ne|]. left. reflexivity.
      + intros z Lz. apply Le. eapply left_down; eauto.
      + intros p Rp. exact (C p Rp).
      + eapply go_infix; [apply Le; eapply left_here; exact P| |exact Go]. apply IHr.
        * eapply nested_child; [exact Ne|]. right. right. apply in_or_app. right. left. reflexivity.
        * intros z Lz. exact (Y _ eq_refl z Lz).
        * intros p Rp. apply Ri. eapply right_down; eauto.
        * apply go_stop, Ri. exact (right_here _ _ _ _ _ _ _ P).
    - pose proof (suffix_parts k kl ll o m Eo) as P. destruct (Ne _ _ _ _ (within_here _) P) as (X & _). destruct (X _ eq_refl) as (_ & C).
      rewrite <- app_assoc. cbn [app]. apply IHl.
      + eapply nested_child; [exact Ne|]. left. reflexivity.
      + intros z Lz. apply Le. eapply left_down; eauto.
      + intros p Rp. exact (C p Rp).
      + eapply go_suffix; [apply Le; eapply left_here; exact P|exact Go].
  Qed.
  Lemma lowest : forall t u, spelled t u -> nested t -> exists q, forall q', q' <= q -> forall z, left_edge t z -> binds q' z.
  Proof.
    assert (Step : forall k kl ll o m r, parts (Node rule k (Node rule kl ll :: Leaf o :: m)) (Some (Node rule kl ll)) o r -> nested (Node rule k (Node rule kl ll :: Leaf o :: m)) ->
      (nested (Node rule kl ll) -> exists q, forall q', q' <= q -> forall z, left_edge (Node rule kl ll) z -> binds q' z) ->
      exists q, forall q', q' <= q -> forall z, left_edge (Node rule k (Node rule kl ll :: Leaf o :: m)) z -> binds q' z).
    { intros k kl ll o m r P Ne IH. destruct IH as (q & Hq); [eapply nested_child; [exact Ne | left; reflexivity]|].
      destruct (Ne _ _ _ _ (within_here _) P) as (X & _). destruct (X _ eq_refl) as ((j & Ej) & _).
      exists (Z.min q j). intros q' Q z Lz. inversion Lz as [t l' o' r' P'|t l' o' r' z' P' Lz']; subst; inversion P'; subst.
      - exists j. split; [exact Ej | lia].
      - apply Hq; [lia | assumption]. }
    intros t u S. induction S as [t N|k o m kr lr v Sr IHr|k kl ll o m kr lr u v Sl IHl Sr IHr|k kl ll o m u Sl IHl Eo]; intros Ne.
    - exists 0. intros q' _ z Lz. inversion Lz; subst; destruct (N _ _ _ ltac:(eassumption)).
    - exists 0. intros q' _ z Lz. inversion Lz as [t l' o' r' P'|t l' o' r' z' P' Lz']; subst; inversion P'.
    - eapply Step; eauto. apply infix_parts.
    - eapply Step; eauto. apply suffix_parts, Eo.
  Qed.
  Theorem one_tree u t t' : spelled t u -> spelled t' u -> nested t -> nested t' -> t' = t.
  Proof.
    intros S S' N N'. destruct (lowest _ _ S N) as (q & Q). destruct (lowest _ _ S' N') as (q' & Q').
    assert (A : reads (Z.min q q') (u ++ []) t []) by (apply (nested_reads _ _ S N); [apply Q; lia | exact (fun _ _ => Logic.I) | apply go_stop; exact Logic.I]).
    assert (B : reads (Z.min q q') (u ++ []) t' []) by (apply (nested_reads _ _ S' N'); [apply Q'; lia | exact (fun _ _ => Logic.I) | apply go_stop; exact Logic.I]).
    exact (proj1 (proj1 one_reading _ _ _ _ A _ _ B)).
  Qed.

  (** every tree is written in some way *)
  Lemma open_end_last kids t : open_end kids = Some t -> exists m k l, kids = m ++ [t] /\ t = Node rule k l.
  Proof.
    unfold OrderSpec.open_end. intros H. destruct (rev kids) as [|[c|c|r k l] m] eqn:E; try discriminate. destruct (Z.eqb_spec r rule) as [->|]; [|discriminate]. injection H as <-.
    exists (rev m), k, l. split; [|reflexivity]. apply (f_equal (@rev tree)) in E. rewrite rev_involutive in E. exact E.
  Qed.
  Fixpoint tree_size (t : tree) : nat := match t with Node _ _ l => S (fold_right (fun t n => (tree_size t + n)%nat) O l) | _ => O end.
  Lemma size_in t r k l : In t l -> (tree_size t < tree_size (Node r k l))%nat.
  Proof. intros I. cbn [tree_size]. induction l as [|c l IH]; [destruct I|]. cbn. destruct I as [->|I]; [lia|]. specialize (IH I). lia. Qed.
  Theorem all_spelled t : exists u, spelled t u.
  Proof.
    enough (X : forall n t, (tree_size t < n)%nat -> exists u, spelled t u) by (eapply X; apply Nat.lt_succ_diag_r).
    clear t. induction n as [|n IH]; intros t L; [lia|].
    assert (Sub : forall r k l c, t = Node r k l -> In c l -> exists u, spelled c u) by (intros r k l c -> I; apply IH; pose proof (size_in c r k l I); lia).
    destruct t as [o|o|r k kids]; [eexists; apply sp_operand; intros l o' r H; inversion H | eexists; apply sp_operand; intros l o' r H; inversion H|].
    destruct (Z.eq_dec r rule) as [->|NE]; [|exists [Operand (Node r k kids)]; apply sp_operand; intros l o' r' H; inversion H; subst; contradiction].
    destruct kids as [|[o|o|r1 k1 l1] kids].
    - eexists. apply sp_operand. intros l o' r' H. inversion H.
    - destruct (open_end kids) as [c|] eqn:E.
      + destruct (open_end_last _ _ E) as (m & kr & lr & -> & ->). destruct (Sub _ _ _ (Node rule kr lr) eq_refl) as (v & Sv); [right; apply in_or_app; right; left; reflexivity|].
        eexists. apply sp_prefix, Sv.
      + eexists. apply sp_operand. intros l o' r' H. inversion H; subst. congruence.
    - eexists. apply sp_operand. intros l o' r' H. inversion H.
    - destruct (Z.eq_dec r1 rule) as [->|NE]; [|eexists; apply sp_operand; intros l o' r' H; inversion H; subst; contradiction].
      destruct kids as [|[o|o|r2 k2 l2] kids]; [eexists; apply sp_operand; intros l o' r' H; inversion H| |eexists; apply sp_operand; intros l o' r' H; inversion H|eexists; apply sp_operand; intros l o' r' H; inversion H].
      destruct (Sub _ _ _ (Node rule k1 l1) eq_refl) as (u & Su); [left; reflexivity|].
      destruct (open_end kids) as [c|] eqn:E; [|eexists; apply sp_suffix; [exact Su | exact E]].
      destruct (open_end_last _ _ E) as (m & kr & lr & -> & ->). destruct (Sub _ _ _ (Node rule kr lr) eq_refl) as (v & Sv); [right; right; apply in_or_app; right; left; reflexivity|].
      eexists. apply sp_infix; eassumption.
  Qed.

  (** every expression has such a tree *)
  Notation written := (written rule level operand prefix).
  Notation continued := (continued rule level operand prefix).
  Lemma binds_dec q x : binds q x \/ ~ binds q x.
  Proof.
    destruct (level x) as [k|] eqn:E; [|right; intros (k & Ek & _); congruence].
    destruct (Z.le_gt_cases q k); [left; exists k; auto|]. right. intros (k' & Ek & L). assert (k' = k) by congruence. lia.
  Qed.
  Lemma prefix_parts_inv k o m kr lr l' o' r' : parts (Node rule k (Leaf o :: m ++ [Node rule kr lr])) l' o' r' -> l' = None /\ o' = o /\ r' = Some (Node rule kr lr).
  Proof. intros P. inversion P as [|k1 o1 rest1 r1 Eo]; subst. rewrite open_app, Z.eqb_refl in Eo. injection Eo as <-. auto. Qed.
  Lemma infix_parts_inv k kl ll o m kr lr l' o' r' : parts (Node rule k (Node rule kl ll :: Leaf o :: m ++ [Node rule kr lr])) l' o' r' ->
    l' = Some (Node rule kl ll) /\ o' = o /\ r' = Some (Node rule kr lr).
  Proof. intros P. inversion P; subst. rewrite open_app, Z.eqb_refl. auto. Qed.
  Lemma suffix_parts_inv k kl ll o m l' o' r' : open_end m = None -> parts (Node rule k (Node rule kl ll :: Leaf o :: m)) l' o' r' ->
    l' = Some (Node rule kl ll) /\ o' = o /\ r' = None.
  Proof. intros E P. inversion P; subst. rewrite E. auto. Qed.
  (** an expression of level [q] behind which [w] follows *)
  Record ends (q : Z) (k : nat) (l : list tree) (u w : list item) : Prop := {
    e_nested : nested (Node rule k l);
    e_spelled : spelled (Node rule k l) u;
    e_left : forall z, left_edge (Node rule k l) z -> binds q z;
    e_right : forall p, right_edge (Node rule k l) p -> stops p w
  }.
  Lemma ends_prefix q k o m kr lr v w : ends (prefix (t_type o)) kr lr v w -> Forall nested m -> stops (prefix (t_type o)) w ->
    ends q k (Leaf o :: m ++ [Node rule kr lr]) (Prefix k o m :: v) w.
  Proof.
    intros [N S L R] F St. constructor.
    - apply nested_node; [apply Forall_cons; [apply leaf_nested|]; apply fine_app; assumption|].
      intros l' o' r' P. apply prefix_parts_inv in P as (-> & -> & ->). split; [discriminate|]. intros r' E. injection E as <-. exact L.
    - apply sp_prefix, S.
    - intros z H. inversion H as [t l' o' r' P|t l' o' r' z' P Hz]; subst; apply prefix_parts_inv in P as (E & _); discriminate.
    - intros p H. inversion H as [t l' o' r' P|t l' o' r' z' P Hz]; subst; apply prefix_parts_inv in P as (-> & -> & E); [exact St|]. injection E as ->. apply R, Hz.
  Qed.
  Lemma ends_infix q k kl ll o m kr lr u v w : ends q kl ll u (Infix k o m :: v ++ w) -> binds q (t_type o) -> ends (operand (t_type o)) kr lr v w -> Forall nested m -> stops (operand (t_type o)) w ->
    ends q k (Node rule kl ll :: Leaf o :: m ++ [Node rule kr lr]) (u ++ Infix k o m :: v) w.
  Proof.
    intros [N S L R] B [N' S' L' R'] F St. constructor.
    - apply nested_node; [apply Forall_cons; [exact N|]; apply Forall_cons; [apply leaf_nested|]; apply fine_app; assumption|].
      intros l' o' r' P. apply infix_parts_inv in P as (-> & -> & ->). split.
      + intros l' E. injection E as <-. split; [destruct B as (j & Ej & _); eauto | exact R].
      + intros r' E. injection E as <-. exact L'.
    - apply sp_infix; assumption.
    - intros z H. inversion H as [t l' o' r' P|t l' o' r' z' P Hz]; subst; apply infix_parts_inv in P as (E & -> & _); [exact B|]. injection E as ->. apply L, Hz.
    - intros p H. inversion H as [t l' o' r' P|t l' o' r' z' P Hz]; subst; apply infix_parts_inv in P as (-> & -> & E); [exact St|]. injection E as ->. apply R', Hz.
  Qed.
  Lemma ends_suffix q k kl ll o m u w : ends q kl ll u (Suffix k o m :: w) -> binds q (t_type o) -> Forall nested m -> open_end m = None ->
    ends q k (Node rule kl ll :: Leaf o :: m) (u ++ [Suffix k o m]) w.
  Proof.
    intros [N S L R] B F Eo. constructor.
    - apply nested_node; [apply Forall_cons; [exact N|]; apply Forall_cons; [apply leaf_nested|]; assumption|].
      intros l' o' r' P. apply (suffix_parts_inv _ _ _ _ _ _ _ _ Eo) in P as (-> & -> & ->). split; [|discriminate].
      intros l' E. injection E as <-. split; [destruct B as (j & Ej & _); eauto | exact R].
    - apply sp_suffix; assumption.
    - intros z H. inversion H as [t l' o' r' P|t l' o' r' z' P Hz]; subst; apply (suffix_parts_inv _ _ _ _ _ _ _ _ Eo) in P as (E & -> & _); [exact B|]. injection E as ->. apply L, Hz.
    - intros p H. inversion H as [t l' o' r' P|t l' o' r' z' P Hz]; subst; apply (suffix_parts_inv _ _ _ _ _ _ _ _ Eo) in P as (_ & _ & E); discriminate.
  Qed.
  (** more of the expression is read while the operators bind tightly enough *)
  Lemma all_read : forall n,
    (forall q w, (length w <= n)%nat -> written w -> exists k l u R, w = u ++ R /\ u <> [] /\ ends q k l u R /\ stops q R /\ continued R) /\
    (forall q k l u w, (length w <= n)%nat -> continued w -> ends q k l u w -> exists k' l' v R, w = v ++ R /\ ends q k' l' (u ++ v) R /\ stops q R /\ continued R).
  Proof.
    induction n as [|n [IH1 IH2]].
    - split; [intros q w L W; destruct W; cbn in L; lia|]. intros q k l u w L C E. destruct w as [|]; [|cbn in L; lia]. exists k, l, [], []. rewrite (app_nil_r u). split; [reflexivity|]. split; [exact E|]. split; [exact Logic.I | constructor].
    - assert (G : forall q k l u w, (length w <= S n)%nat -> continued w -> ends q k l u w -> exists k' l' v R, w = v ++ R /\ ends q k' l' (u ++ v) R /\ stops q R /\ continued R).
      { intros q k l u w L C E. inversion C as [|k1 o m w1 Lv F W|k1 o m w1 Lv F Eo C']; subst; cbn [length] in L.
        - exists k, l, [], []. rewrite (app_nil_r u). split; [reflexivity|]. split; [exact E|]. split; [exact Logic.I | constructor].
        - destruct (binds_dec q (t_type o)) as [B|B]; [|exists k, l, [], (Infix k1 o m :: w1); rewrite (app_nil_r u); split; [reflexivity|]; split; [exact E|]; split; [exact B | exact C]].
          destruct (IH1 (operand (t_type o)) w1 ltac:(lia) W) as (kr & lr & v & R & -> & Nv & Er & St & Co).
          destruct (IH2 q k1 (Node rule k l :: Leaf o :: m ++ [Node rule kr lr]) (u ++ Infix k1 o m :: v) R) as (k' & l' & v' & R' & -> & E' & St' & Co').
          + rewrite app_length in L. lia.
          + exact Co.
          + eapply ends_infix; eassumption.
          + exists k', l', (Infix k1 o m :: v ++ v'), R'. split; [cbn; rewrite <- app_assoc; reflexivity|]. split; [|auto]. rewrite <- app_assoc in E'. exact E'.
        - destruct (binds_dec q (t_type o)) as [B|B]; [|exists k, l, [], (Suffix k1 o m :: w1); rewrite (app_nil_r u); split; [reflexivity|]; split; [exact E|]; split; [exact B | exact C]].
          destruct (IH2 q k1 (Node rule k l :: Leaf o :: m) (u ++ [Suffix k1 o m]) w1) as (k' & l' & v' & R' & -> & E' & St' & Co'); [lia | exact C' | apply ends_suffix; assumption |].
          exists k', l', (Suffix k1 o m :: v'), R'. split; [reflexivity|]. split; [|auto]. rewrite <- app_assoc in E'. exact E'. }
      split; [|exact G]. intros q w L W. inversion W as [k l w1 No Ne C|k o m w1 F W']; subst; cbn [length] in L.
      + destruct (IH2 q k l [Operand (Node rule k l)] w1) as (k' & l' & v & R & -> & E & St & Co); [lia | exact C | |].
        * constructor; [exact Ne | apply sp_operand, No | |]; intros z H; inversion H; subst; destruct (No _ _ _ ltac:(eassumption)).
        * exists k', l', (Operand (Node rule k l) :: v), R. split; [reflexivity|]. split; [discriminate|]. auto.
      + destruct (IH1 (prefix (t_type o)) w1 ltac:(lia) W') as (kr & lr & v & R & -> & Nv & Er & St & Co).
        destruct (G q k (Leaf o :: m ++ [Node rule kr lr]) (Prefix k o m :: v) R) as (k' & l' & v' & R' & -> & E' & St' & Co').
        * rewrite app_length in L. destruct v; [contradiction|]. cbn in L. lia.
        * exact Co.
        * apply ends_prefix; eassumption.
        * exists k', l', (Prefix k o m :: v ++ v'), R'. split; [cbn; rewrite <- app_assoc; reflexivity|]. split; [discriminate|]. split; [exact E' | auto].
  Qed.
  Lemma levels_below : forall w, exists q, forall k o m, In (Infix k o m) w \/ In (Suffix k o m) w -> forall j, level (t_type o) = Some j -> q <= j.
  Proof.
    induction w as [|x w (q & H)]; [exists 0; intros k o m [[]|[]]|].
    assert (X : exists b, forall k o m, x = Infix k o m \/ x = Suffix k o m -> forall j, level (t_type o) = Some j -> b <= j).
    { destruct x as [t|k o m|k o m|k o m]; [exists 0; intros ? ? ? [|]; discriminate | exists 0; intros ? ? ? [|]; discriminate | |];
        (exists (match level (t_type o) with Some j => j | None => 0 end); intros ? ? ? [E|E]; try discriminate; injection E as <- <- <-; intros j ->; lia). }
    destruct X as (b & B). exists (Z.min q b). intros k o m I j E.
    assert (Y : (x = Infix k o m \/ x = Suffix k o m) \/ (In (Infix k o m) w \/ In (Suffix k o m) w)) by (destruct I as [[I|I]|[I|I]]; auto).
    destruct Y as [Y|Y]; [specialize (B _ _ _ Y _ E) | specialize (H _ _ _ Y _ E)]; lia.
  Qed.
  Theorem some_tree w : written w -> exists k l, spelled (Node rule k l) w /\ nested (Node rule k l).
  Proof.
    intros W. destruct (levels_below w) as (q & Q). destruct (proj1 (all_read (length w)) q w (le_n _) W) as (k & l & u & R & -> & _ & E & St & Co).
    exists k, l. split; [|apply E]. replace (u ++ R) with u; [apply E|]. destruct Co as [|k1 o m w1 (j & Ej) _ _|k1 o m w1 (j & Ej) _ _ _]; [symmetry; apply app_nil_r| |]; destruct St; exists j; (split; [exact Ej|]);
      eapply Q; [left | exact Ej | right | exact Ej]; apply in_or_app; right; left; reflexivity.
  Qed.
  Theorem nested_written k l w : spelled (Node rule k l) w -> nested (Node rule k l) -> written w.
  Proof.
    intros S N. rewrite <- (app_nil_r w). generalize (co_end rule level operand prefix). generalize (@nil item).
    remember (Node rule k l) as t eqn:Et. revert k l Et N.
    induction S as [t No|k o m kr lr v Sr IHr|k kl ll o m kr lr u v Sl IHl Sr IHr|k kl ll o m u Sl IHl Eo]; intros k0 l0 Et Ne w C.
    - subst t. apply wr_operand; assumption.
    - pose proof (nested_kids _ _ _ _ _ _ _ Ne) as F. inversion F as [|? ? _ F']; subst. apply Forall_app in F' as (Fm & Fr). inversion Fr; subst.
      cbn [app]. apply wr_prefix; [exact Fm|]. eapply IHr; eauto.
    - pose proof (nested_kids _ _ _ _ _ _ _ Ne) as F. inversion F as [|? ? Nl F1]; subst. inversion F1 as [|? ? _ F']; subst. apply Forall_app in F' as (Fm & Fr). inversion Fr; subst.
      rewrite <- app_assoc. cbn [app]. eapply IHl; [reflexivity | exact Nl|]. apply co_infix; [|exact Fm|eapply IHr; eauto].
      destruct (Ne _ _ _ _ (within_here _) (infix_parts k kl ll o m kr lr)) as (X & _). apply (X _ eq_refl).
    - pose proof (nested_kids _ _ _ _ _ _ _ Ne) as F. inversion F as [|? ? Nl F1]; subst. inversion F1 as [|? ? _ F']; subst.
      rewrite <- app_assoc. cbn [app]. eapply IHl; [reflexivity | exact Nl|]. apply co_suffix; [|exact F' | exact Eo | exact C].
      destruct (Ne _ _ _ _ (within_here _) (suffix_parts k kl ll o m Eo)) as (X & _). apply (X _ eq_refl).
  Qed.
End Unique.
