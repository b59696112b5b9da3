(** Proofs about the tree model. *)
From Coq Require Import ZArith List Bool Lia.
From Coq Require Import ZifyBool ZifyNat.
From Verif Require Import Outcome TreeModel TreeSpec.
Import ListNotations.
Local Open Scope Z_scope.
Local Open Scope outcome_scope.

(** ** Induction over trees *)

Section NodeInd.
  Variable P : node -> Prop.
  Hypothesis Hleaf : forall i e ty s x, P (Leaf i e ty s x).
  Hypothesis Hrule : forall i p k x a cs, Forall P cs -> P (Rule i p k x a cs).
  Fixpoint node_ind' (t : node) : P t :=
    match t with
    | Leaf i e ty s x => Hleaf i e ty s x
    | Rule i p k x a cs =>
        Hrule i p k x a cs
          ((fix all (l : list node) : Forall P l :=
              match l with
              | [] => Forall_nil P
              | c :: r => Forall_cons c (node_ind' c) (all r)
              end) cs)
    end.
End NodeInd.

Section ShapeInd.
  Variable P : shape -> Prop.
  Hypothesis H : forall s subs, Forall P subs -> P (Shape s subs).
  Fixpoint shape_ind' (t : shape) : P t :=
    match t with
    | Shape s subs =>
        H s subs
          ((fix all (l : list shape) : Forall P l :=
              match l with
              | [] => Forall_nil P
              | c :: r => Forall_cons c (shape_ind' c) (all r)
              end) subs)
    end.
End ShapeInd.

Lemma children_from_spec : forall cs pre fuel i p k x a,
  (length cs < fuel)%nat ->
  children_from fuel (Rule i p k x a (pre ++ cs)) (length pre) = cs.
Proof.
  induction cs as [|c cs IH]; intros pre fuel i p k x a Hf; destruct fuel as [|fuel]; try (cbn in Hf; lia);
    cbn [children_from get_child_count get_child].
  - rewrite app_nil_r. rewrite (proj2 (Nat.ltb_ge _ _)) by lia. reflexivity.
  - rewrite app_length. cbn [length]. rewrite (proj2 (Nat.ltb_lt _ _)) by lia.
    rewrite nth_error_app2, Nat.sub_diag by lia. cbn [nth_error].
    f_equal. specialize (IH (pre ++ [c]) fuel i p k x a). rewrite <- app_assoc in IH. cbn [app] in IH.
    rewrite app_length in IH. cbn [length] in IH. replace (length pre + 1)%nat with (S (length pre)) in IH by lia.
    apply IH. cbn in Hf. lia.
Qed.

Lemma get_children_kids t : get_children t = kids t.
Proof.
  destruct t as [i e ty s x|i p k x a cs]; [reflexivity|].
  unfold get_children. cbn [get_child_count kids].
  apply (children_from_spec cs [] (S (length cs)) i p k x a). lia.
Qed.

(** ** Fuel *)

Lemma fold_out_app {A B} (f : A -> B -> outcome A) l1 l2 a :
  fold_out f (l1 ++ l2) a = obindo (fold_out f l1 a) (fun a' => fold_out f l2 a').
Proof. revert a. induction l1 as [|b l1 IH]; intros a; cbn; [reflexivity|]. destruct (f a b); cbn; auto. Qed.

(** If every element has a bound after which the body behaves like [g], so has the loop. *)
Lemma fold_out_fuel {A B} (f : nat -> A -> B -> outcome A) (g : A -> B -> A) l :
  Forall (fun b => exists n, forall fuel, (n <= fuel)%nat -> forall a, f fuel a b = Val (g a b)) l ->
  exists n, forall fuel, (n <= fuel)%nat -> forall a, fold_out (f fuel) l a = Val (fold_left g l a).
Proof.
  induction 1 as [|b l [n Hn] _ [m Hm]].
  - exists O. reflexivity.
  - exists (Nat.max n m). intros fuel Hf a. cbn. rewrite Hn by lia. cbn. apply Hm. lia.
Qed.

(** ** Walking *)

Fixpoint doc (t : node) : list event :=
  match t with
  | Leaf _ false _ _ _ => [VisitTerminal t]
  | Leaf _ true _ _ _ => [VisitErrorNode t]
  | Rule _ true _ _ _ cs => flat_map doc cs
  | Rule _ false _ _ _ cs =>
      [EnterEveryRule t; EnterRule t] ++ flat_map doc cs ++ [ExitRule t; ExitEveryRule t]
  end.

Lemma fold_left_flat_map {A B C} (f : A -> B -> A) (g : C -> list B) l a :
  fold_left f (flat_map g l) a = fold_left (fun acc x => fold_left f (g x) acc) l a.
Proof. revert a. induction l as [|x l IH]; intros a; cbn; [reflexivity|]. rewrite fold_left_app. apply IH. Qed.

Lemma walk_doc {L} (K : listener L) t :
  exists n, forall fuel, (n <= fuel)%nat -> forall l,
    walk_inner K fuel l t = Val (fold_left (deliver K) (doc t) l).
Proof.
  induction t as [i e ty s x|i p k x a cs IH] using node_ind'.
  - exists 1%nat. intros [|fuel] Hf l; [lia|]. destruct e; reflexivity.
  - destruct (fold_out_fuel (fun fuel l child => walk_inner K fuel l child)
                (fun l child => fold_left (deliver K) (doc child) l) cs IH) as [n Hn].
    exists (S n). intros [|fuel] Hf l; [lia|]. cbn [walk_inner].
    rewrite get_children_kids. cbn [kids]. rewrite Hn by lia. cbn [obindo].
    destruct p; cbn [enter exit doc]; rewrite ?fold_left_app, fold_left_flat_map; reflexivity.
Qed.

(** *** Document order of [doc] *)

Lemma within_trans a b c : within a b -> within b c -> within a c.
Proof. induction 1; eauto using within_kid. Qed.

Lemma within_inv t d : within t d -> d = t \/ exists c, In c (kids t) /\ within c d.
Proof. intros H. destruct H; eauto. Qed.

Lemma doc_events t e : In e (doc t) <-> within t (subject e) /\ due e.
Proof.
  revert e. induction t as [i er ty s x|i p k x a cs IH] using node_ind'; intros ev.
  - split.
    + intros H. destruct er; cbn in H; destruct H as [H|[]]; subst ev; cbn; split; try constructor.
      * repeat eexists.
      * repeat eexists.
    + intros [Hw Hd]. apply within_inv in Hw. cbn [kids] in Hw. destruct Hw as [Hw|(c & [] & _)].
      destruct ev; cbn in Hw, Hd; subst; unfold terminal_leaf, error_leaf, called_rule in Hd.
      all: repeat match goal with H : ex _ |- _ => destruct H as [? H] end; try discriminate.
      all: match goal with H : _ = _ |- _ => injection H; intros; subst end; cbn; auto.
  - assert (Hkids : In ev (flat_map doc cs) <-> exists c, In c cs /\ within c (subject ev) /\ due ev).
    { rewrite in_flat_map. split; intros (c & Hc & H); exists c; split; auto;
        rewrite Forall_forall in IH; apply (IH c Hc ev); assumption. }
    assert (Hown : subject ev = Rule i p k x a cs -> due ev -> p = false /\
              In ev [EnterEveryRule (Rule i p k x a cs); EnterRule (Rule i p k x a cs);
                     ExitRule (Rule i p k x a cs); ExitEveryRule (Rule i p k x a cs)]).
    { intros Hs Hd. destruct ev; cbn in Hs, Hd; subst; unfold terminal_leaf, error_leaf, called_rule in Hd.
      all: repeat match goal with H : ex _ |- _ => destruct H as [? H] end; try discriminate.
      all: match goal with H : _ = _ |- _ => injection H; intros; subst end; cbn; auto 8. }
    assert (Hw : within (Rule i p k x a cs) (subject ev) <->
              subject ev = Rule i p k x a cs \/ exists c, In c cs /\ within c (subject ev)).
    { split; [intros H; apply within_inv in H; exact H|].
      intros [H|(c & Hc & H)]; [rewrite H; constructor|econstructor; eauto]. }
    destruct p.
    + cbn [doc]. rewrite Hkids, Hw. split.
      * intros (c & Hc & H & Hd). eauto 6.
      * intros [[H|(c & Hc & H)] Hd]; [destruct (Hown H Hd); discriminate|eauto].
    + cbn [doc]. rewrite !in_app_iff, Hkids, Hw. split.
      * assert (Hcalled : called_rule (Rule i false k x a cs)) by (repeat eexists).
        intros [H|[(c & Hc & H & Hd)|H]]; [|eauto 6|]; cbn in H;
          repeat (destruct H as [H|H]); try contradiction; subst ev; cbn; auto.
      * intros [[H|(c & Hc & H)] Hd].
        -- destruct (Hown H Hd) as [_ H2]. cbn in H2. cbn. tauto.
        -- eauto 6.
Qed.

Lemma before_app_l evs l e1 e2 : before evs e1 e2 -> before (l ++ evs) e1 e2.
Proof. intros (a & b & c & ->). exists (l ++ a), b, c. now rewrite app_assoc. Qed.
Lemma before_app_r evs l e1 e2 : before evs e1 e2 -> before (evs ++ l) e1 e2.
Proof. intros (a & b & c & ->). exists a, b, (c ++ l). repeat (rewrite <- !app_assoc; cbn [app]). reflexivity. Qed.
Lemma before_split l1 l2 e1 e2 : In e1 l1 -> In e2 l2 -> before (l1 ++ l2) e1 e2.
Proof.
  intros H1 H2. apply in_split in H1, H2. destruct H1 as (a & b & ->), H2 as (c & d & ->).
  exists a, (b ++ c), d. repeat (rewrite <- !app_assoc; cbn [app]). reflexivity.
Qed.

(** The events about a node of the tree are a contiguous piece of the log. *)
Lemma doc_within t x : within t x -> exists l1 l2, doc t = l1 ++ doc x ++ l2.
Proof.
  induction 1 as [t|t c d Hc Hw IH].
  - exists [], []. now rewrite app_nil_r.
  - destruct IH as (l1 & l2 & E).
    destruct t as [i e ty s y|i p k y a cs]; cbn [kids] in Hc; [contradiction|].
    apply in_split in Hc. destruct Hc as (c1 & c2 & ->).
    destruct p; cbn [doc]; rewrite flat_map_app; cbn [flat_map]; rewrite E.
    + exists (flat_map doc c1 ++ l1), (l2 ++ flat_map doc c2). now rewrite !app_assoc.
    + set (A := [EnterEveryRule _; EnterRule _]). set (B := [ExitRule _; ExitEveryRule _]).
      exists (A ++ flat_map doc c1 ++ l1), (l2 ++ flat_map doc c2 ++ B). now rewrite !app_assoc.
Qed.

Lemma before_within t x e1 e2 : within t x -> before (doc x) e1 e2 -> before (doc t) e1 e2.
Proof.
  intros Hw Hb. destruct (doc_within t x Hw) as (l1 & l2 & ->).
  now apply before_app_l, before_app_r.
Qed.

Lemma within_ids t x : within t x -> In (identity x) (identities t).
Proof.
  induction 1 as [t|t c d Hc Hw IH].
  - destruct t; cbn; auto.
  - destruct t; cbn [kids] in Hc; [contradiction|]. cbn [identities]. right. apply in_flat_map. eauto.
Qed.

Lemma nodup_flat_map {A B} (f : A -> list B) (g : A -> list nat) (key : B -> nat) l :
  NoDup (flat_map g l) ->
  Forall (fun x => NoDup (f x)) l ->
  (forall x b, In x l -> In b (f x) -> In (key b) (g x)) ->
  NoDup (flat_map f l).
Proof.
  induction l as [|x l IH]; cbn; intros Hg Hf Hk; [constructor|].
  inversion Hf as [|? ? Hfx Hfl]; subst.
  assert (Hd : forall b, In b (f x) -> ~ In b (flat_map f l)).
  { intros b Hb Hb'. apply in_flat_map in Hb'. destruct Hb' as (y & Hy & Hyb).
    assert (In (key b) (g x)) by (apply Hk; auto).
    assert (In (key b) (flat_map g l)) by (apply in_flat_map; exists y; split; auto).
    clear - Hg H H0. revert H. induction (g x) as [|z zs IHz]; cbn in *; [tauto|].
    inversion Hg as [|? ? Hz Hzs]; subst. intros [->|H]; [apply Hz, in_app_iff; auto|apply IHz; auto]. }
  assert (Hl : NoDup (flat_map f l)).
  { apply IH; auto. clear - Hg. induction (g x); cbn in Hg; [assumption|]. inversion Hg; auto. }
  clear - Hfx Hl Hd. induction (f x) as [|b bs IHb]; cbn; [assumption|].
  inversion Hfx; subst. constructor.
  - rewrite in_app_iff. intros [H|H]; [auto|]. apply (Hd b); cbn; auto.
  - apply IHb; auto. intros b' Hb'. apply Hd. cbn; auto.
Qed.

Lemma doc_ids t e : In e (doc t) -> In (identity (subject e)) (identities t).
Proof. intros H. apply doc_events in H. now apply within_ids. Qed.

Lemma doc_nodup t : proper_tree t -> NoDup (doc t).
Proof.
  unfold proper_tree. induction t as [i er ty s x|i p k x a cs IH] using node_ind'; intros Hp.
  - destruct er; cbn; repeat constructor; auto.
  - cbn [identities] in Hp. inversion Hp as [|? ? Hi Hcs]; subst.
    assert (HN : NoDup (flat_map doc cs)).
    { apply (nodup_flat_map doc identities (fun e => identity (subject e))); auto.
      - rewrite Forall_forall in *. intros c Hc. apply IH; auto.
        clear - Hcs Hc. induction cs as [|d cs IHd]; [contradiction|]. cbn in Hcs.
        destruct Hc as [->|Hc].
        + clear - Hcs. induction (identities c) as [|z zs IHz]; [constructor|]. cbn in Hcs. inversion Hcs; subst.
          constructor; [rewrite in_app_iff in *; tauto|auto].
        + apply IHd; auto. clear - Hcs. induction (identities d); cbn in Hcs; [assumption|]. inversion Hcs; auto.
      - intros c e Hc He. now apply doc_ids. }
    assert (Hown : forall e, In e (flat_map doc cs) -> subject e <> Rule i p k x a cs).
    { intros e He Hs. apply in_flat_map in He. destruct He as (c & Hc & He).
      apply Hi. apply in_flat_map. exists c. split; auto. apply doc_ids in He. now rewrite Hs in He. }
    destruct p; cbn [doc]; [assumption|].
    change ([EnterEveryRule (Rule i false k x a cs); EnterRule (Rule i false k x a cs)] ++ flat_map doc cs ++
            [ExitRule (Rule i false k x a cs); ExitEveryRule (Rule i false k x a cs)])
      with (EnterEveryRule (Rule i false k x a cs) :: EnterRule (Rule i false k x a cs) :: flat_map doc cs ++
            [ExitRule (Rule i false k x a cs); ExitEveryRule (Rule i false k x a cs)]).
    constructor; [|constructor].
    + cbn. rewrite in_app_iff. cbn. intros [H|[H|[H|[H|[]]]]]; try discriminate.
      apply (Hown _ H). reflexivity.
    + rewrite in_app_iff. cbn. intros [H|[H|[H|[]]]]; try discriminate.
      apply (Hown _ H). reflexivity.
    + clear - HN Hown. induction (flat_map doc cs) as [|b bs IHb]; cbn.
      * repeat constructor; cbn; intros H; try tauto. destruct H as [H|[]]; discriminate.
      * inversion HN; subst. constructor.
        -- rewrite in_app_iff. cbn. intros [H|[H|[H|[]]]]; [auto| |];
             apply (Hown b); subst; cbn; auto.
        -- apply IHb; auto. intros e He. apply Hown. cbn; auto.
Qed.

Lemma doc_order t : proper_tree t -> document_order t (doc t).
Proof.
  intros Hp. constructor.
  - now apply doc_nodup.
  - apply doc_events.
  - intros x Hw (i & k & y & a & cs & ->). apply (before_within t _ _ _ Hw). cbn [doc].
    exists [], [], (flat_map doc cs ++ [ExitRule (Rule i false k y a cs); ExitEveryRule (Rule i false k y a cs)]).
    reflexivity.
  - intros x Hw (i & k & y & a & cs & ->). apply (before_within t _ _ _ Hw). cbn [doc].
    apply before_app_l, before_app_l. exists [], [], []. reflexivity.
  - intros x Hw (i & k & y & a & cs & ->). apply (before_within t _ _ _ Hw). cbn [doc].
    apply before_split; [cbn; auto|]. apply in_app_iff. cbn; auto.
  - intros x c e Hw (i & k & y & a & cs & ->) Hc Hin Hdue. cbn [kids] in Hc.
    assert (He : In e (flat_map doc cs)).
    { apply in_flat_map. exists c. split; auto. apply doc_events. auto. }
    split; apply (before_within t _ _ _ Hw); cbn [doc].
    + apply before_split; [cbn; auto|]. apply in_app_iff. auto.
    + apply before_app_l. apply before_split; cbn; auto.
  - intros x l1 c1 l2 c2 l3 e1 e2 Hw Hk Hw1 Hd1 Hw2 Hd2.
    assert (H1 : In e1 (doc c1)) by (apply doc_events; auto).
    assert (H2 : In e2 (doc c2)) by (apply doc_events; auto).
    apply (before_within t _ _ _ Hw).
    assert (Hb : before (flat_map doc (kids x)) e1 e2).
    { rewrite Hk, flat_map_app. apply before_app_l. cbn [flat_map]. apply before_split; auto.
      rewrite flat_map_app. apply in_app_iff. right. cbn. apply in_app_iff. auto. }
    destruct x as [i e ty s y|i p k y a cs]; cbn [kids] in *; [destruct l1; discriminate|].
    destruct p; cbn [doc]; [assumption|]. now apply before_app_l, before_app_r.
Qed.

(** *** Document order determines the sequence *)

Lemma before_app_inv l1 l2 e1 e2 : before (l1 ++ l2) e1 e2 ->
  before l1 e1 e2 \/ before l2 e1 e2 \/ (In e1 l1 /\ In e2 l2).
Proof.
  revert l2. induction l1 as [|x l1 IH]; intros l2 (a & b & c & E); cbn in E.
  - right; left. exists a, b, c. assumption.
  - destruct a as [|y a]; cbn in E; injection E as -> E.
    + assert (H : In e2 (l1 ++ l2)) by (rewrite E; apply in_app_iff; right; left; reflexivity).
      apply in_app_iff in H. destruct H as [H|H].
      * left. apply in_split in H. destruct H as (p & q & ->). exists [], p, q. reflexivity.
      * right; right. cbn; auto.
    + destruct (IH l2) as [H|[H|[H1 H2]]]; [exists a, b, c; assumption| | |].
      * left. now apply (before_app_l l1 [y]).
      * auto.
      * right; right. cbn; auto.
Qed.

Lemma before_in l e1 e2 : before l e1 e2 -> In e1 l /\ In e2 l.
Proof. intros (a & b & c & ->). rewrite !in_app_iff. cbn. rewrite !in_app_iff. cbn. tauto. Qed.

Lemma before_single e x y : ~ before [e] x y.
Proof.
  intros (a & b & c & E). destruct a as [|z a]; [|destruct a; discriminate]. cbn in E. injection E as -> E.
  destruct b; discriminate.
Qed.

Lemma before_pair x y e1 e2 : before [x; y] e1 e2 -> e1 = x /\ e2 = y.
Proof.
  intros H. apply (before_app_inv [x] [y]) in H. destruct H as [H|[H|[H1 H2]]].
  - now apply before_single in H.
  - now apply before_single in H.
  - cbn in H1, H2. intuition congruence.
Qed.

Lemma before_flat_map {A} (f : A -> list event) l e1 e2 : before (flat_map f l) e1 e2 ->
  (exists c, In c l /\ before (f c) e1 e2) \/
  (exists l1 c1 l2 c2 l3, l = l1 ++ c1 :: l2 ++ c2 :: l3 /\ In e1 (f c1) /\ In e2 (f c2)).
Proof.
  induction l as [|x l IH]; cbn; intros H.
  - apply before_in in H. destruct H as [[] _].
  - apply before_app_inv in H. destruct H as [H|[H|[H1 H2]]].
    + left. exists x. auto.
    + destruct (IH H) as [(c & Hc & Hb)|(l1 & c1 & l2 & c2 & l3 & -> & H1 & H2)].
      * left. exists c. auto.
      * right. exists (x :: l1), c1, l2, c2, l3. auto.
    + right. apply in_flat_map in H2. destruct H2 as (c & Hc & H2). apply in_split in Hc. destruct Hc as (p & q & ->).
      exists [], x, p, c, q. auto.
Qed.

Lemma before_trans evs e1 e2 e3 : NoDup evs -> before evs e1 e2 -> before evs e2 e3 -> before evs e1 e3.
Proof.
  intros Hn (a & b & c & E1) (a' & b' & c' & E2).
  assert (E : a ++ e1 :: b ++ e2 :: c = a' ++ e2 :: b' ++ e3 :: c') by congruence.
  assert (H2 : (a ++ e1 :: b) ++ e2 :: c = a' ++ e2 :: b' ++ e3 :: c') by (rewrite <- app_assoc; exact E).
  assert (Hsplit : a ++ e1 :: b = a' /\ c = b' ++ e3 :: c').
  { subst evs. rewrite E in Hn. clear E E2. revert a' Hn H2. generalize (a ++ e1 :: b) as u.
    induction u as [|x u IH]; intros [|y a'] Hn H2; cbn in *.
    - injection H2 as ->. auto.
    - injection H2 as -> H2. inversion Hn as [|? ? N N']; subst. exfalso. apply N. apply in_app_iff. right. left. reflexivity.
    - injection H2 as -> H2. inversion Hn as [|? ? N N']; subst. exfalso. apply N. rewrite <- H2. apply in_app_iff. right. left. reflexivity.
    - injection H2 as -> H2. inversion Hn as [|? ? N N']; subst. destruct (IH a' N' H2) as [-> ->]. auto. }
  destruct Hsplit as [_ ->]. rewrite E1. exists a, (b ++ e2 :: b'), c'. now rewrite <- app_assoc.
Qed.

Lemma document_order_forced t evs x : document_order t evs -> within t x ->
  forall e1 e2, before (doc x) e1 e2 -> before evs e1 e2.
Proof.
  intros D. induction x as [i er ty s y|i p k y a cs IH] using node_ind'; intros Hw e1 e2 Hb.
  - exfalso. destruct er; cbn in Hb; exact (before_single _ _ _ Hb).
  - assert (HF : forall e1 e2, before (flat_map doc cs) e1 e2 -> before evs e1 e2).
    { intros f1 f2 Hf. apply before_flat_map in Hf. destruct Hf as [(c & Hc & Hf)|(l1 & c1 & l2 & c2 & l3 & E & H1 & H2)].
      - rewrite Forall_forall in IH. apply (IH c Hc); auto.
        eapply within_trans; [exact Hw|]. econstructor; [exact Hc|constructor].
      - apply doc_events in H1, H2. destruct H1, H2.
        eapply (do_siblings _ _ D _ l1 c1 l2 c2 l3); eauto. }
    destruct p; cbn [doc] in Hb; [auto|].
    assert (Hc : called_rule (Rule i false k y a cs)) by (repeat eexists).
    set (X := Rule i false k y a cs) in *.
    assert (Hin : forall e, In e (flat_map doc cs) -> exists c, In c (kids X) /\ within c (subject e) /\ due e).
    { intros e He. apply in_flat_map in He. destruct He as (c & Hcin & He). apply doc_events in He. exists c. tauto. }
    pose proof (do_enter _ _ D X Hw Hc) as Ha. pose proof (do_exit _ _ D X Hw Hc) as Hz.
    pose proof (do_body _ _ D X Hw Hc) as Hm.
    assert (Hup : forall e, In e (flat_map doc cs) -> before evs (EnterRule X) e /\ before evs e (ExitRule X)).
    { intros e He. destruct (Hin e He) as (c & Hc1 & Hc2 & Hc3). eapply (do_nested _ _ D); eauto. }
    pose proof (do_once _ _ D) as Hn.
    assert (T : forall a b c, before evs a b -> before evs b c -> before evs a c) by (intros; eapply before_trans; eauto).
    apply before_app_inv in Hb. destruct Hb as [Hb|[Hb|[H1 H2]]].
    + apply before_pair in Hb. destruct Hb as [-> ->]. assumption.
    + apply before_app_inv in Hb. destruct Hb as [Hb|[Hb|[H1 H2]]].
      * auto.
      * apply before_pair in Hb. destruct Hb as [-> ->]. assumption.
      * destruct (Hup _ H1) as [_ Hr]. cbn in H2. destruct H2 as [<-|[<-|[]]]; [assumption|eauto].
    + assert (Hs : before evs (EnterRule X) e2 ).
      { apply in_app_iff in H2. destruct H2 as [H2|H2]; [now apply Hup|]. cbn in H2. destruct H2 as [<-|[<-|[]]]; eauto. }
      cbn in H1. destruct H1 as [<-|[<-|[]]]; eauto.
Qed.

Lemma same_order (l1 : list event) : forall l2, NoDup l1 -> NoDup l2 -> (forall e, In e l1 <-> In e l2) ->
  (forall e1 e2, before l1 e1 e2 -> before l2 e1 e2) -> l1 = l2.
Proof.
  induction l1 as [|x l1 IH]; intros l2 N1 N2 HI HB.
  - destruct l2 as [|y l2]; [reflexivity|]. exfalso. apply (HI y). left. reflexivity.
  - destruct l2 as [|y l2]; [exfalso; apply (HI x); left; reflexivity|].
    inversion N1 as [|? ? Nx N1']; inversion N2 as [|? ? Ny N2']; subst.
    assert (x = y) as ->.
    { assert (Hy : In y (x :: l1)) by (apply HI; left; reflexivity). destruct Hy as [|Hy]; [assumption|]. exfalso.
      assert (Hb : before (x :: l1) x y).
      { apply in_split in Hy. destruct Hy as (p & q & ->). exists [], p, q. reflexivity. }
      apply HB in Hb. destruct Hb as (a & b & c & E). destruct a as [|z a]; cbn in E; injection E as -> E;
        apply Ny; rewrite E; rewrite ?in_app_iff; cbn; rewrite ?in_app_iff; cbn; auto. }
    f_equal. apply IH; auto.
    + intros e. specialize (HI e). cbn in HI. split; intros H.
      * destruct (proj1 HI (or_intror H)) as [->|]; [contradiction|assumption].
      * destruct (proj2 HI (or_intror H)) as [->|]; [contradiction|assumption].
    + intros e1 e2 H. assert (H' : before (y :: l1) e1 e2) by (now apply (before_app_l l1 [y])).
      apply HB in H'. destruct H' as (a & b & c & E). destruct a as [|z a]; cbn in E; injection E as -> E.
      * apply before_in in H. tauto.
      * exists a, b, c. assumption.
Qed.

Lemma document_order_unique t evs : document_order t evs -> proper_tree t -> evs = doc t.
Proof.
  intros D Hp. symmetry. apply same_order.
  - now apply doc_nodup.
  - apply (do_once _ _ D).
  - intros e. now rewrite doc_events, (do_events _ _ D).
  - intros e1 e2. apply (document_order_forced t evs t D). constructor.
Qed.

(** ** Text *)

Lemma get_text_frontier t :
  exists n, forall fuel, (n <= fuel)%nat -> get_text fuel t = Val (concat (map leaf_text (frontier t))).
Proof.
  induction t as [i er ty s x|i p k x a cs IH] using node_ind'.
  - exists 1%nat. intros [|fuel] Hf; [lia|]. cbn. now rewrite app_nil_r.
  - destruct (fold_out_fuel (fun fuel result child => let! s := get_text fuel child in Val (result ++ s))
                (fun result child => result ++ concat (map leaf_text (frontier child))) cs) as [n Hn].
    { rewrite Forall_forall in *. intros c Hc. destruct (IH c Hc) as [n Hn]. exists n. intros fuel Hf acc.
      now rewrite Hn by lia. }
    exists (S n). intros [|fuel] Hf; [lia|]. cbn [get_text]. rewrite get_children_kids. cbn [kids].
    rewrite Hn by lia. f_equal. cbn [frontier]. clear.
    change (concat (map leaf_text (flat_map frontier cs))) with ([] ++ concat (map leaf_text (flat_map frontier cs))).
    generalize (@nil Z). induction cs as [|c cs IH]; intros acc; cbn; [now rewrite app_nil_r|].
    rewrite IH. rewrite map_app, concat_app. now rewrite app_assoc.
Qed.

(** ** Escaping *)

Lemma escape_concat s b : escape_whitespaces s b = concat (map (escape_char b) s).
Proof.
  unfold escape_whitespaces.
  change (concat (map (escape_char b) s)) with ([] ++ concat (map (escape_char b) s)).
  generalize (@nil Z). induction s as [|c s IH]; intros acc; cbn; [now rewrite app_nil_r|].
  now rewrite IH, app_assoc.
Qed.

Lemma escape_char_ok b c : escapes b c (escape_char b c).
Proof.
  unfold escape_char.
  destruct (Z.eqb_spec c 32) as [->|H32]; destruct b; cbn [andb]; try (constructor; congruence);
  destruct (Z.eqb_spec c 9) as [->|H9]; try constructor;
  destruct (Z.eqb_spec c 10) as [->|H10]; try constructor;
  destruct (Z.eqb_spec c 13) as [->|H13]; constructor; congruence.
Qed.

Lemma escapes_fun b c p1 p2 : escapes b c p1 -> escapes b c p2 -> p1 = p2.
Proof.
  assert (E : forall p, escapes b c p -> p = escape_char b c).
  { intros p H. destruct H as [| | | ->|c H9 H10 H13 H32]; unfold escape_char; try reflexivity.
    destruct (Z.eqb_spec c 32), b; cbn [andb]; try (exfalso; now apply H32);
      now rewrite !(proj2 (Z.eqb_neq _ _)) by assumption. }
  intros H1 H2. now rewrite (E p1 H1), (E p2 H2).
Qed.

(** ** Decimal *)

Lemma digits_value_app s d : digits_value (s ++ [d]) = 10 * digits_value s + (d - 48).
Proof. unfold digits_value. now rewrite fold_left_app. Qed.

Lemma digits_ok fuel n : 0 <= n < 10 ^ Z.of_nat fuel -> (0 < fuel)%nat ->
  decimal_digits (digits fuel n) /\ digits_value (digits fuel n) = n /\ (0 < n -> 49 <= hd 0 (digits fuel n)).
Proof.
  revert n. induction fuel as [|fuel IH]; intros n Hn Hf; [lia|]. cbn [digits].
  destruct (Z.ltb_spec n 10) as [Hlt|Hge].
  - split; [|split; unfold digits_value; cbn [fold_left hd]; lia]. split; [repeat constructor; lia|]. split; [discriminate|].
    cbn [hd]. intros H. f_equal. lia.
  - assert (Hq : 0 <= n / 10 < 10 ^ Z.of_nat fuel).
    { split; [apply Z.div_pos; lia|]. apply Z.div_lt_upper_bound; [lia|].
      replace (Z.of_nat (S fuel)) with (Z.of_nat fuel + 1) in Hn by lia. rewrite Z.pow_add_r in Hn by lia. lia. }
    assert (Hpos : 0 < n / 10) by (apply Z.div_str_pos; lia).
    destruct fuel as [|fuel']; [cbn in Hq; lia|].
    destruct (IH (n / 10) Hq ltac:(lia)) as ((Hd1 & Hd2 & Hd3) & Hv & Hh).
    set (ds := digits (S fuel') (n / 10)) in *.
    assert (Hm : 0 <= n mod 10 < 10) by (apply Z.mod_pos_bound; lia).
    destruct ds as [|d ds']; [congruence|].
    repeat split.
    + apply Forall_app. split; [assumption|]. repeat constructor; lia.
    + discriminate.
    + cbn in *. intros H. specialize (Hh Hpos). lia.
    + rewrite digits_value_app, Hv. pose proof (Z.div_mod n 10). lia.
    + cbn in *. intros _. auto.
Qed.

Lemma isize_to_string_ok z : decimal_of (isize_to_string z) z.
Proof.
  unfold isize_to_string, decimal_of.
  assert (Hb : 0 <= Z.abs z < 10 ^ Z.of_nat (S (Z.to_nat (Z.log2 (Z.abs z))))).
  { split; [lia|]. destruct (Z.eq_dec (Z.abs z) 0) as [->|Hne]; [cbn; lia|].
    pose proof (Z.log2_spec (Z.abs z) ltac:(lia)) as [_ Hl].
    eapply Z.lt_le_trans; [exact Hl|].
    replace (Z.of_nat (S (Z.to_nat (Z.log2 (Z.abs z))))) with (Z.succ (Z.log2 (Z.abs z)))
      by (pose proof (Z.log2_nonneg (Z.abs z)); lia).
    apply Z.pow_le_mono_l. pose proof (Z.log2_nonneg (Z.abs z)). lia. }
  destruct (digits_ok _ _ Hb ltac:(lia)) as (Hd & Hv & _).
  destruct (Z.ltb_spec z 0) as [Hz|Hz].
  - right. split; [assumption|]. eexists. split; [reflexivity|]. split; [assumption|]. lia.
  - left. split; [assumption|]. cbn [app]. split; [assumption|]. lia.
Qed.

Lemma digits_value_bound s : Forall (fun d => 48 <= d <= 57) s -> 0 <= digits_value s < 10 ^ Z.of_nat (length s).
Proof.
  induction s as [|d s IH] using rev_ind; intros H; [cbn; lia|].
  rewrite digits_value_app, app_length. cbn [length]. apply Forall_app in H. destruct H as [H1 H2].
  inversion H2; subst. specialize (IH H1).
  replace (Z.of_nat (length s + 1)) with (Z.of_nat (length s) + 1) by lia. rewrite Z.pow_add_r by lia. lia.
Qed.

Lemma digits_value_inj s1 s2 :
  Forall (fun d => 48 <= d <= 57) s1 -> Forall (fun d => 48 <= d <= 57) s2 ->
  length s1 = length s2 -> digits_value s1 = digits_value s2 -> s1 = s2.
Proof.
  revert s2. induction s1 as [|d1 s1 IH] using rev_ind; intros s2 H1 H2 Hl Hv.
  - destruct s2; [reflexivity|discriminate].
  - destruct s2 as [|d2 s2 _] using rev_ind.
    + rewrite app_length in Hl. cbn in Hl. lia.
    + rewrite !app_length in Hl. cbn in Hl. rewrite !digits_value_app in Hv.
      apply Forall_app in H1, H2. destruct H1 as [H1 H1'], H2 as [H2 H2'].
      inversion H1'; inversion H2'; subst.
      assert (digits_value s1 = digits_value s2 /\ d1 = d2) as [Hs ->] by lia.
      f_equal. apply IH; auto; lia.
Qed.

Lemma digits_value_low s : decimal_digits s -> (1 < length s)%nat -> 10 ^ (Z.of_nat (length s) - 1) <= digits_value s.
Proof.
  intros (Hd & Hne & Hz) Hl. destruct s as [|d s]; [congruence|]. cbn [hd] in Hz.
  assert (Hd1 : 49 <= d).
  { inversion Hd; subst. destruct (Z.eq_dec d 48) as [->|]; [|lia]. specialize (Hz eq_refl). injection Hz as ->. cbn in Hl. lia. }
  clear Hz Hl Hne. inversion Hd; subst. clear Hd.
  induction s as [|x s IH] using rev_ind.
  - cbn. lia.
  - change (d :: s ++ [x]) with ((d :: s) ++ [x]). rewrite digits_value_app, app_length. cbn [length].
    apply Forall_app in H2. destruct H2 as [H2 H3]. inversion H3; subst. specialize (IH H2). cbn [length] in IH.
    replace (Z.of_nat (S (length s) + 1) - 1) with ((Z.of_nat (S (length s)) - 1) + 1) by lia.
    rewrite Z.pow_add_r by lia. lia.
Qed.

Lemma decimal_digits_inj s1 s2 : decimal_digits s1 -> decimal_digits s2 -> digits_value s1 = digits_value s2 -> s1 = s2.
Proof.
  intros H1 H2 Hv. destruct H1 as (Hd1 & Hn1 & Hz1), H2 as (Hd2 & Hn2 & Hz2).
  pose proof (digits_value_bound _ Hd1) as B1. pose proof (digits_value_bound _ Hd2) as B2.
  assert (L : forall s1 s2, decimal_digits s1 -> decimal_digits s2 -> digits_value s1 = digits_value s2 ->
              digits_value s1 < 10 ^ Z.of_nat (length s1) -> (length s2 <= length s1)%nat).
  { clear. intros s1 s2 H1 H2 Hv Hb. destruct (Nat.le_gt_cases (length s2) (length s1)) as [|Hgt]; [assumption|].
    destruct H1 as (Hd1 & Hn1 & Hz1). destruct s1 as [|x s1]; [congruence|]. cbn [length] in Hgt.
    pose proof (digits_value_low s2 H2 ltac:(lia)) as Hlow. rewrite <- Hv in Hlow.
    assert (10 ^ Z.of_nat (length (x :: s1)) <= 10 ^ (Z.of_nat (length s2) - 1)) by (apply Z.pow_le_mono_r; cbn [length]; lia).
    lia. }
  apply digits_value_inj; auto.
  assert (length s2 <= length s1)%nat by (apply L; repeat split; auto; lia).
  assert (length s1 <= length s2)%nat by (apply L; repeat split; auto; lia). lia.
Qed.

Lemma decimal_of_fun s1 s2 z : decimal_of s1 z -> decimal_of s2 z -> s1 = s2.
Proof.
  intros [(H & D1 & V1)|(H & u1 & -> & D1 & V1)] [(H' & D2 & V2)|(H' & u2 & -> & D2 & V2)]; try lia.
  - apply decimal_digits_inj; auto. congruence.
  - f_equal. apply decimal_digits_inj; auto. lia.
Qed.

(** ** Printing *)

Lemma named_ok names t s : named names t s -> get_node_text t names = Val s.
Proof.
  intros H. destruct H as [i e ty s x|i p k n cs nm Hn|i p k n a cs nm d Hn Ha Hd]; cbn; [reflexivity| |];
    rewrite (proj2 (Z.ltb_ge _ _)) by lia; rewrite Nat2Z.id, Hn; cbn [unwrap obindo].
  - reflexivity.
  - unfold INVALID_ALT. destruct (Z.eqb_spec a 0); [congruence|]. cbn [negb].
    now rewrite (decimal_of_fun _ _ _ Hd (isize_to_string_ok a)).
Qed.

Lemma named_total names t s : get_node_text t names = Val s -> named names t s.
Proof.
  destruct t as [i e ty s' x|i p k n a cs]; cbn.
  - intros [= ->]. constructor.
  - destruct (Z.ltb_spec n 0); cbn; [discriminate|].
    destruct (nth_error names (Z.to_nat n)) as [nm|] eqn:E; cbn; [|discriminate].
    rewrite <- (Z2Nat.id n) by lia. unfold INVALID_ALT. destruct (Z.eqb_spec a 0) as [->|Ha]; intros [= <-].
    + now constructor.
    + constructor; auto. apply isize_to_string_ok.
Qed.

Fixpoint render (sh : shape) : text :=
  match sh with
  | Shape s [] => escape_whitespaces s false
  | Shape s subs => [40] ++ escape_whitespaces s false ++ flat_map (fun u => [32] ++ render u) subs ++ [41]
  end.

Lemma string_tree_render names t sh : shaped names t sh ->
  exists n, forall fuel, (n <= fuel)%nat -> string_tree fuel t names = Val (render sh).
Proof.
  revert sh. induction t as [i er ty s x|i p k x a cs IH] using node_ind'; intros sh Hsh;
    inversion Hsh as [? s0 subs Hn Hk]; subst; apply named_ok in Hn.
  - exists 1%nat. intros [|fuel] Hf; [lia|]. cbn [string_tree]. rewrite Hn. cbn [obindo get_child_count Nat.eqb].
    cbn [kids] in Hk. inversion Hk; subst. reflexivity.
  - cbn [kids] in Hk.
    assert (HF : exists n, forall fuel, (n <= fuel)%nat -> forall acc,
              fold_out (fun acc child => let! text := string_tree fuel child names in Val ((acc ++ [32]) ++ text)) cs acc
              = Val (acc ++ flat_map (fun u => [32] ++ render u) subs)).
    { clear Hn Hsh. revert IH. induction Hk as [|c sc cs subs Hc Hk IHk]; intros IH.
      - exists O. intros. cbn. now rewrite app_nil_r.
      - inversion IH as [|? ? IHc IHcs]; subst.
        destruct (IHc sc Hc) as [n Hn]. destruct (IHk IHcs) as [m Hm].
        exists (Nat.max n m). intros fuel Hf acc. cbn [fold_out]. rewrite Hn by lia. cbn [obindo].
        rewrite Hm by lia. f_equal. cbn [flat_map]. now rewrite <- !app_assoc. }
    destruct HF as [n HF]. exists (S n). intros [|fuel] Hf; [lia|]. cbn [string_tree]. rewrite Hn.
    cbn [obindo get_child_count]. destruct Hk as [|c sc cs subs Hc Hk]; [reflexivity|].
    cbn [length Nat.eqb]. rewrite get_children_kids. cbn [kids]. rewrite HF by lia. cbn [obindo].
    f_equal. cbn [render]. now rewrite <- !app_assoc.
Qed.

Lemma escape_label s : label_escape s (escape_whitespaces s false).
Proof.
  exists (map (escape_char false) s). split; [|apply escape_concat].
  induction s; cbn; constructor; auto using escape_char_ok.
Qed.

Lemma render_rendered sh : rendered label_escape sh (render sh).
Proof.
  induction sh as [s subs IH] using shape_ind'. destruct subs as [|u subs].
  - cbn. constructor. apply escape_label.
  - cbn [render]. 
    assert (E : forall l, flat_map (fun u => [32] ++ render u) l = flat_map (fun u => [32] ++ u) (map render l)).
    { induction l as [|y l IHl]; [reflexivity|]. cbn [flat_map map]. now rewrite IHl. }
    rewrite E.
    constructor; [discriminate|apply escape_label|].
    clear -IH. induction IH; cbn; constructor; auto.
Qed.

(** *** Injectivity *)

Definition delim (k : text) : Prop := k = [] \/ exists k', k = 32 :: k' \/ k = 41 :: k'.

Definition quiet (s : text) : Prop := Forall (fun c => c <> 32 /\ c <> 40 /\ c <> 41) s.

Lemma quiet_split s1 s2 k1 k2 : quiet s1 -> quiet s2 -> delim k1 -> delim k2 ->
  s1 ++ k1 = s2 ++ k2 -> s1 = s2 /\ k1 = k2.
Proof.
  intros H1. revert s2. induction H1 as [|c s1 Hc H1 IH]; intros s2 H2 D1 D2 E.
  - destruct H2 as [|c2 s2 Hc2 H2]; [auto|]. exfalso. cbn in E. subst k1.
    destruct D1 as [D|(k' & [D|D])]; [discriminate| |]; injection D as -> _; lia.
  - destruct H2 as [|c2 s2 Hc2 H2].
    + exfalso. cbn in E. subst k2. destruct D2 as [D|(k' & [D|D])]; [discriminate| |]; injection D as -> _; lia.
    + cbn in E. injection E as -> E. destruct (IH s2 H2 D1 D2 E) as [-> ->]. auto.
Qed.

Lemma escape_quiet s : clean s -> quiet (escape_whitespaces s false).
Proof.
  intros H. rewrite escape_concat. induction H as [|c s Hc H IH]; cbn; [constructor|].
  apply Forall_app. split; [|assumption].
  unfold escape_char. rewrite andb_false_r.
  destruct (c =? 9); [repeat constructor; lia|]. destruct (c =? 10); [repeat constructor; lia|].
  destruct (c =? 13); [repeat constructor; lia|]. repeat constructor; lia.
Qed.

Lemma escape_char_inj b c1 c2 k1 k2 :
  c1 <> 92 -> c2 <> 92 -> (b = true -> c1 <> 183) -> (b = true -> c2 <> 183) ->
  escape_char b c1 ++ k1 = escape_char b c2 ++ k2 -> c1 = c2 /\ k1 = k2.
Proof.
  intros H1 H2 M1 M2. unfold escape_char.
  destruct b; rewrite ?andb_true_r, ?andb_false_r;
  repeat match goal with |- context [?c =? ?z] => destruct (Z.eqb_spec c z); subst end;
  cbn; intros [=]; subst; auto; try congruence; exfalso; (solve [now apply M1] || solve [now apply M2] || idtac).
Qed.

Lemma escape_inj b s1 s2 :
  Forall (fun c => c <> 92 /\ (b = true -> c <> 183)) s1 -> Forall (fun c => c <> 92 /\ (b = true -> c <> 183)) s2 ->
  escape_whitespaces s1 b = escape_whitespaces s2 b -> s1 = s2.
Proof.
  rewrite !escape_concat. intros H1. revert s2.
  assert (Hne : forall c, escape_char b c <> []).
  { intros c. unfold escape_char. destruct ((c =? 32) && b); [discriminate|].
    destruct (c =? 9); [discriminate|]. destruct (c =? 10); [discriminate|]. destruct (c =? 13); discriminate. }
  induction H1 as [|c s1 [Hc Mc] H1 IH]; intros s2 H2 E.
  - destruct H2 as [|c2 s2 Hc2 H2]; [reflexivity|]. cbn in E. exfalso.
    symmetry in E. apply app_eq_nil in E. destruct E as [E _]. now apply Hne in E.
  - destruct H2 as [|c2 s2 [Hc2 Mc2] H2].
    + exfalso. cbn in E. apply app_eq_nil in E. destruct E as [E _]. now apply Hne in E.
    + cbn in E. apply escape_char_inj in E; auto. destruct E as [-> E]. f_equal. now apply IH.
Qed.

Lemma clean_escape_inj s1 s2 : clean s1 -> clean s2 ->
  escape_whitespaces s1 false = escape_whitespaces s2 false -> s1 = s2.
Proof.
  intros H1 H2. apply escape_inj; (eapply Forall_impl; [|eassumption]); cbn; intros c Hc; (split; [tauto|discriminate]).
Qed.

Lemma render_head sh : clean_shape sh ->
  match sh with Shape s [] => quiet (render sh) | _ => exists r, render sh = 40 :: r end.
Proof.
  intros H. destruct H as [s subs Hs _]. destruct subs; cbn [render].
  - now apply escape_quiet.
  - eexists. reflexivity.
Qed.

Lemma quiet_not_paren s k r : quiet s -> delim k -> s ++ k = 40 :: r -> False.
Proof.
  intros Hq Hd E. destruct Hq as [|c s Hc Hq].
  - cbn in E. subst k. destruct Hd as [D|(k' & [D|D])]; discriminate.
  - injection E as -> _. lia.
Qed.

Lemma render_inj sh1 : forall sh2 k1 k2, clean_shape sh1 -> clean_shape sh2 -> delim k1 -> delim k2 ->
  render sh1 ++ k1 = render sh2 ++ k2 -> sh1 = sh2 /\ k1 = k2.
Proof.
  induction sh1 as [s1 subs1 IH] using shape_ind'. intros [s2 subs2] k1 k2 C1 C2 D1 D2 E.
  pose proof (render_head _ C1) as R1. pose proof (render_head _ C2) as R2.
  inversion C1 as [? ? Hs1 Hc1]; inversion C2 as [? ? Hs2 Hc2]; subst.
  destruct subs1 as [|u1 subs1], subs2 as [|u2 subs2].
  - cbn [render] in *. destruct (quiet_split _ _ _ _ R1 R2 D1 D2 E) as [E1 ->].
    apply clean_escape_inj in E1; auto. subst. auto.
  - exfalso. destruct R2 as [r R2]. rewrite R2 in E. cbn [app] in E. exact (quiet_not_paren _ _ _ R1 D1 E).
  - exfalso. destruct R1 as [r R1]. rewrite R1 in E. cbn [app] in E. symmetry in E. exact (quiet_not_paren _ _ _ R2 D2 E).
  - clear R1 R2 C1 C2.
    assert (E' : 40 :: (escape_whitespaces s1 false ++ flat_map (fun u => [32] ++ render u) (u1 :: subs1) ++ [41] ++ k1) =
                 40 :: (escape_whitespaces s2 false ++ flat_map (fun u => [32] ++ render u) (u2 :: subs2) ++ [41] ++ k2)).
    { cbn [render] in E. rewrite <- !app_assoc in E. exact E. }
    clear E. injection E' as E.
    assert (DM : forall us k, delim (flat_map (fun u => [32] ++ render u) us ++ [41] ++ k)).
    { intros us k. right. destruct us; cbn; eauto. }
    destruct (quiet_split _ _ _ _ (escape_quiet _ Hs1) (escape_quiet _ Hs2) (DM (u1 :: subs1) k1) (DM (u2 :: subs2) k2) E)
      as [E1 E3]. clear E. rename E3 into E. apply clean_escape_inj in E1; auto. subst s2.
    assert (HL : forall us1 us2 k1 k2, Forall (fun sh1 => forall sh2 k1 k2, clean_shape sh1 -> clean_shape sh2 -> delim k1 -> delim k2 ->
                    render sh1 ++ k1 = render sh2 ++ k2 -> sh1 = sh2 /\ k1 = k2) us1 ->
              Forall clean_shape us1 -> Forall clean_shape us2 ->
              flat_map (fun u => [32] ++ render u) us1 ++ [41] ++ k1 = flat_map (fun u => [32] ++ render u) us2 ++ [41] ++ k2 ->
              us1 = us2 /\ k1 = k2).
    { clear - DM. induction us1 as [|u us1 IHu]; intros us2 k1 k2 F C1 C2 E; destruct us2 as [|v us2]; cbn in E.
      - injection E as ->. auto.
      - discriminate.
      - discriminate.
      - injection E as E. rewrite <- !app_assoc in E. inversion F; inversion C1; inversion C2; subst.
        destruct (H1 v _ _ H5 H9 (DM us1 k1) (DM us2 k2) E) as [-> E2].
        destruct (IHu us2 k1 k2 H2 H6 H10 E2) as [-> ->]. auto. }
    destruct (HL _ _ _ _ IH Hc1 Hc2 E) as [E2 ->]. rewrite E2. auto.
Qed.

Lemma string_tree_mono f1 f2 t names s : (f1 <= f2)%nat -> string_tree f1 t names = Val s -> string_tree f2 t names = Val s.
Proof.
  revert f2 t s. induction f1 as [|f1 IH]; intros f2 t s Hle H; [discriminate|].
  destruct f2 as [|f2]; [lia|]. cbn [string_tree] in *.
  destruct (get_node_text t names); cbn [obindo] in *; try discriminate.
  destruct (get_child_count t =? 0)%nat; [assumption|].
  remember ([40] ++ escape_whitespaces a false) as acc eqn:Eacc. clear Eacc a.
  destruct (fold_out _ (get_children t) acc) as [r| |] eqn:F in H; cbn [obindo] in H; try discriminate.
  assert (HF : fold_out (fun acc child => let! text := string_tree f2 child names in Val ((acc ++ [32]) ++ text))
                 (get_children t) acc = Val r).
  { clear H. revert acc r F. induction (get_children t) as [|c cs IHc]; intros acc r F; cbn [fold_out] in *; [assumption|].
    destruct (string_tree f1 c names) as [u| |] eqn:E; cbn [obindo] in F; try discriminate.
    rewrite (IH f2 c u ltac:(lia) E). cbn [obindo]. auto. }
  rewrite HF. exact H.
Qed.

(** A tree with a rule index without a name cannot be printed. *)
Lemma string_tree_panics names t x : within t x -> (forall s, ~ named names x s) ->
  exists n, forall fuel, (n <= fuel)%nat -> string_tree fuel t names = Panics.
Proof.
  intros Hw Hx. induction Hw as [t|t c d Hc Hw IH].
  - exists 1%nat. intros [|fuel] Hf; [lia|]. cbn [string_tree].
    destruct (get_node_text t names) as [s| |] eqn:E; cbn [obindo].
    + apply named_total in E. now apply Hx in E.
    + reflexivity.
    + destruct t as [|i p k n a cs]; cbn in E; [discriminate|].
      destruct (n <? 0); cbn in E; [discriminate|]. destruct (nth_error names (Z.to_nat n)); cbn in E; [|discriminate].
      destruct (negb (a =? INVALID_ALT)); discriminate.
  - destruct (IH Hx) as [n Hn].
    destruct t as [i e ty s y|i p k y a cs]; cbn [kids] in Hc; [contradiction|].
    apply in_split in Hc. destruct Hc as (c1 & c2 & Ecs).
    (* every sibling either prints or panics, given enough fuel *)
    assert (Hall : forall u, exists m, (exists r, forall fuel, (m <= fuel)%nat -> string_tree fuel u names = Val r)
                     \/ (forall fuel, (m <= fuel)%nat -> string_tree fuel u names = Panics)).
    { clear. induction u as [i er ty s x|i p k x a cs IH] using node_ind'.
      - exists 1%nat. left. eexists. intros [|fuel] Hf; [lia|]. reflexivity.
      - assert (HF : exists m, forall acc,
                  (exists r, forall fuel, (m <= fuel)%nat ->
                     fold_out (fun acc child => let! text := string_tree fuel child names in Val ((acc ++ [32]) ++ text)) cs acc = Val r)
                  \/ (forall fuel, (m <= fuel)%nat ->
                     fold_out (fun acc child => let! text := string_tree fuel child names in Val ((acc ++ [32]) ++ text)) cs acc = Panics)).
        { induction IH as [|c cs [m Hm] _ [m' Hm']].
          - exists O. intros acc. left. eexists. reflexivity.
          - exists (Nat.max m m'). intros acc. destruct Hm as [[r Hr]|Hp].
            + destruct (Hm' ((acc ++ [32]) ++ r)) as [[r' Hr']|Hp'].
              * left. exists r'. intros fuel Hf. cbn [fold_out]. rewrite Hr by lia. cbn [obindo]. apply Hr'. lia.
              * right. intros fuel Hf. cbn [fold_out]. rewrite Hr by lia. cbn [obindo]. apply Hp'. lia.
            + right. intros fuel Hf. cbn [fold_out]. rewrite Hp by lia. reflexivity. }
        destruct HF as [m HF]. exists (S m).
        destruct (get_node_text (Rule i p k x a cs) names) as [s| |] eqn:E.
        + destruct (Nat.eqb_spec (get_child_count (Rule i p k x a cs)) 0) as [Ez|Ez].
          * left. eexists. intros [|fuel] Hf; [lia|]. cbn [string_tree]. rewrite E, Ez. reflexivity.
          * destruct (HF ([40] ++ escape_whitespaces s false)) as [[r Hr]|Hp].
            -- left. eexists. intros [|fuel] Hf; [lia|]. cbn [string_tree]. rewrite E. cbn [obindo].
               rewrite (proj2 (Nat.eqb_neq _ _) Ez). rewrite get_children_kids. cbn [kids]. rewrite Hr by lia. reflexivity.
            -- right. intros [|fuel] Hf; [lia|]. cbn [string_tree]. rewrite E. cbn [obindo].
               rewrite (proj2 (Nat.eqb_neq _ _) Ez). rewrite get_children_kids. cbn [kids]. rewrite Hp by lia. reflexivity.
        + right. intros [|fuel] Hf; [lia|]. cbn [string_tree]. rewrite E. reflexivity.
        + exfalso. cbn in E. destruct (x <? 0); cbn in E; [discriminate|].
          destruct (nth_error names (Z.to_nat x)); cbn in E; [|discriminate]. destruct (negb (a =? INVALID_ALT)); discriminate. }
    destruct (Hall (Rule i p k y a cs)) as [m [[r Hr]|Hp]]; [|eauto].
    exfalso. specialize (Hr (S (Nat.max m n)) ltac:(lia)). cbn [string_tree] in Hr.
    destruct (get_node_text (Rule i p k y a cs) names) as [s| |]; cbn [obindo] in Hr; try discriminate.
    rewrite Ecs in Hr. cbn [get_child_count] in Hr. rewrite app_length in Hr. cbn [length] in Hr.
    rewrite (proj2 (Nat.eqb_neq _ _)) in Hr by lia. rewrite get_children_kids in Hr. cbn [kids] in Hr.
    rewrite fold_out_app in Hr. destruct (fold_out _ c1 _) in Hr; cbn [obindo] in Hr; try discriminate.
    cbn [fold_out] in Hr. rewrite Hn in Hr by lia. discriminate.
Qed.

(** ** Contexts *)

Lemma states_stack_ok c l root : ancestry c (l ++ [root]) ->
  Forall (fun d => 0 <= invoking d) l -> invoking root < 0 ->
  states_stack c = Val (map invoking l).
Proof.
  revert c. induction l as [|d l IH]; intros c Ha Hl Hr; cbn [app] in Ha.
  - inversion Ha as [i r s|i r s q l0 Hq]; subst.
    + cbn in Hr |- *. now rewrite (proj2 (Z.ltb_lt _ _)) by lia.
    + inversion Hq.
  - inversion Ha as [i r s|i r s q l0 Hq]; subst.
    + destruct l; discriminate.
    + inversion Hl; subst. cbn in H1 |- *. rewrite (proj2 (Z.ltb_ge _ _)) by lia.
      now rewrite (IH q) by auto.
Qed.

Lemma states_stack_orphan c l : ancestry c l -> Forall (fun d => 0 <= invoking d) l -> states_stack c = Panics.
Proof.
  induction 1 as [i r s|i r s q l Hq IH]; intros Hl; inversion Hl as [|? ? H1 H2]; subst; cbn in *;
    rewrite (proj2 (Z.ltb_ge _ _)) by lia; [reflexivity|]. now rewrite IH.
Qed.

Definition items names c : list text :=
  match names with
  | Some ns => [match (if rule_of c <? 0 then None else nth_error ns (Z.to_nat (rule_of c))) with
                | Some n => n | None => isize_to_string (rule_of c) end]
  | None => if invoking c =? -1 then [] else [isize_to_string (invoking c)]
  end.

Lemma items_shown names c shown : 0 <= rule_of c -> shown_as names c shown -> shown = items names c.
Proof.
  intros Hr H. destruct H as [ns c n nm En E Hn|ns c n d En E Hn Hd|c d En Hi Hd|c En Hi]; rewrite En; cbn.
  - rewrite E. rewrite (proj2 (Z.ltb_ge _ _)) by lia. now rewrite Nat2Z.id, Hn.
  - rewrite E in *. rewrite (proj2 (Z.ltb_ge _ _)) by lia. rewrite Nat2Z.id, Hn.
    now rewrite (decimal_of_fun _ _ _ Hd (isize_to_string_ok _)).
  - destruct (Z.eqb_spec (invoking c) (-1)); [congruence|].
    now rewrite (decimal_of_fun _ _ _ Hd (isize_to_string_ok _)).
  - now rewrite Hi.
Qed.

Lemma stack_loop_ok names stop c : forall l r acc, ancestry c l -> below stop l r ->
  stack_loop c names stop acc = acc ++ flat_map (fun s => s ++ [32]) (flat_map (items names) r).
Proof.
  intros l r acc Ha. revert r acc. induction Ha as [i ru s|i ru s q l Hq IH]; intros r acc Hb.
  - inversion Hb as [|c' l' Hs|c' l' r' Hs Hb']; subst; cbn [stack_loop ident] in *.
    + rewrite Nat.eqb_refl. cbn. now rewrite app_nil_r.
    + inversion Hb'; subst. destruct stop as [z|].
      * destruct (Nat.eqb_spec z i); [congruence|].
        destruct names as [ns|]; cbn; [now rewrite ?app_nil_r, <- ?app_assoc|].
        destruct (s =? -1); cbn; now rewrite ?app_nil_r, <- ?app_assoc.
      * destruct names as [ns|]; cbn; [now rewrite ?app_nil_r, <- ?app_assoc|].
        destruct (s =? -1); cbn; now rewrite ?app_nil_r, <- ?app_assoc.
  - inversion Hb as [|c' l' Hs|c' l' r' Hs Hb']; subst; cbn [stack_loop ident] in *.
    + rewrite Nat.eqb_refl. cbn. now rewrite app_nil_r.
    + assert (Hst : (match stop with Some z => Nat.eqb z i | None => false end) = false).
      { destruct stop as [z|]; [|reflexivity]. destruct (Nat.eqb_spec z i); [congruence|reflexivity]. }
      rewrite Hst, (IH r' _ Hb'). cbn [flat_map]. rewrite flat_map_app.
      destruct names as [ns|]; cbn [items rule_of invoking flat_map app];
        [now rewrite ?app_nil_r, <- ?app_assoc|].
      destruct (s =? -1); cbn; now rewrite ?app_nil_r, <- ?app_assoc.
Qed.

Lemma spaced_trailing l : l <> [] -> flat_map (fun s => s ++ [32]) l = spaced l ++ [32].
Proof.
  induction l as [|s l IH]; intros H; [congruence|]. destruct l as [|u l].
  - cbn. now rewrite app_nil_r.
  - cbn [flat_map]. cbn [flat_map] in IH. rewrite IH by discriminate.
    change (spaced (s :: u :: l)) with (s ++ [32] ++ spaced (u :: l)). now rewrite <- !app_assoc.
Qed.

Lemma rule_stack_ok names stop c l r shown : ancestry c l -> below stop l r ->
  Forall2 (shown_as names) r shown -> Forall (fun c => 0 <= rule_of c) l ->
  rule_stack_string c names stop = [91] ++ spaced (concat shown) ++ [93].
Proof.
  intros Ha Hb Hs Hr. unfold rule_stack_string. rewrite (stack_loop_ok names stop c l r [91] Ha Hb).
  assert (Hr' : Forall (fun c => 0 <= rule_of c) r).
  { clear - Hb Hr. induction Hb; try constructor; inversion Hr; subst; auto. }
  assert (Hi : flat_map (items names) r = concat shown).
  { clear - Hs Hr'. induction Hs as [|c sh r shown Hc Hs IH]; cbn; [reflexivity|]. inversion Hr'; subst.
    rewrite IH by auto. f_equal. symmetry. now apply items_shown. }
  rewrite Hi. destruct (concat shown) as [|s ss].
  - reflexivity.
  - rewrite spaced_trailing by discriminate. rewrite app_assoc.
    rewrite last_last. cbn [Z.eqb]. rewrite removelast_last. now rewrite <- app_assoc.
Qed.

(** ** Children of a kind *)

Lemma selects_filter {A} (P : A -> Prop) (f : A -> bool) l : (forall x, f x = true <-> P x) -> selects P l (filter f l).
Proof.
  intros H. induction l as [|x l IH]; cbn; [constructor|]. destruct (f x) eqn:E.
  - constructor; auto. now apply H.
  - constructor; auto. rewrite <- H. congruence.
Qed.

Definition tokb (ty : Z) (t : node) : bool := match t with Leaf _ false ty' _ _ => ty' =? ty | _ => false end.

Lemma tokens_filter ty l :
  map snd (filter (fun p => fst p =? ty) (filter_map is_terminal l)) = filter (tokb ty) l.
Proof.
  unfold filter_map. induction l as [|x l IH]; [reflexivity|]. cbn [flat_map].
  destruct x as [i [|] ty' s y|i p k y a cs]; cbn; try assumption.
  destruct (ty' =? ty); cbn; congruence.
Qed.

Lemma tokb_ok ty t : tokb ty t = true <-> terminal_of_type ty t.
Proof.
  unfold terminal_of_type. destruct t as [i [|] ty' s y|i p k y a cs]; cbn; split; try discriminate;
    try (intros (? & ? & ? & H); discriminate).
  - intros H. apply Z.eqb_eq in H. subst. eauto.
  - intros (? & ? & ? & [= -> -> -> ->]). apply Z.eqb_refl.
Qed.

Lemma has_kind_ok k t : has_kind k t = true <-> rule_of_kind k t.
Proof.
  unfold rule_of_kind. destruct t as [i e ty s y|i p k' y a cs]; cbn; split; try discriminate.
  - intros (? & ? & ? & ? & ? & H). discriminate.
  - intros H. apply Nat.eqb_eq in H. subst. repeat eexists.
  - intros (? & ? & ? & ? & ? & [= -> -> -> -> -> ->]). apply Nat.eqb_refl.
Qed.

(** ** Visiting *)

Section Visit.
  Context {V R : Type}.
  Variable K : visitor V R.

  Definition vloop (fuel : nat) :=
    fix loop (cs : list node) (st : V * R) (result : R) : outcome ((V * R) * R) :=
      match cs with
      | [] => Val (st, result)
      | c :: rest =>
          if v_more K c result then
            let! (st, child_result) := visit K fuel c st in
            loop rest st (v_aggregate K result child_result)
          else Val (st, result)
      end.

  Lemma visit_ok t : (forall x, within t x -> ~ plain_rule x) -> forall v tmp, exists v' r,
    visits K t v v' r /\
    exists n, forall fuel, (n <= fuel)%nat -> visit K fuel t (v, tmp) = Val ((v', v_default K), r).
  Proof.
    induction t as [i er ty s x|i p k x a cs IH] using node_ind'; intros Hpl v tmp.
    - destruct er.
      + do 2 eexists. split; [apply vs_error; repeat eexists|].
        exists 1%nat. intros [|fuel] Hf; [lia|]. cbn. destruct (v_error K _ v). reflexivity.
      + do 2 eexists. split; [apply vs_terminal; repeat eexists|].
        exists 1%nat. intros [|fuel] Hf; [lia|]. cbn. destruct (v_terminal K _ v). reflexivity.
    - destruct p.
      { exfalso. apply (Hpl _ (within_here _)). repeat eexists. }
      assert (Hc : called_rule (Rule i false k x a cs)) by (repeat eexists).
      destruct (v_rule K (Rule i false k x a cs)) as [f|] eqn:Ef.
      { do 2 eexists. split; [eapply vs_override; eassumption|].
        exists 1%nat. intros [|fuel] Hf; [lia|]. cbn [visit]. rewrite Ef. cbn. destruct (f v). reflexivity. }
      assert (HL : forall acc v tmp, exists v' r, visits_list K cs v acc v' r /\
                exists n tmp', forall fuel, (n <= fuel)%nat -> vloop fuel cs (v, tmp) acc = Val ((v', tmp'), r)).
      { assert (Hk : forall c, In c cs -> forall y, within c y -> ~ plain_rule y).
        { intros c Hin y Hy. apply Hpl. econstructor; eauto. }
        clear Hpl Hc Ef v tmp. induction IH as [|c cs IHc _ IHcs]; intros acc v tmp.
        - do 2 eexists. split; [constructor|]. exists O, tmp. reflexivity.
        - destruct (v_more K c acc) eqn:Em.
          + destruct (IHc (Hk c (or_introl eq_refl)) v tmp) as (v1 & r1 & Hv1 & n1 & Hn1).
            destruct (IHcs (fun c' H => Hk c' (or_intror H)) (v_aggregate K acc r1) v1 (v_default K))
              as (v2 & r2 & Hv2 & n2 & tmp2 & Hn2).
            exists v2, r2. split; [eapply vl_next; eauto|].
            exists (Nat.max n1 n2), tmp2. intros fuel Hf. cbn [vloop]. rewrite Em.
            rewrite Hn1 by lia. cbn [obindo]. apply Hn2. lia.
          + do 2 eexists. split; [now apply vl_stop|]. exists O, tmp. intros fuel Hf. cbn [vloop]. rewrite Em. reflexivity. }
      destruct (HL (v_default K) v tmp) as (v' & r & Hv & n & tmp' & Hn).
      exists v', r. split; [apply vs_children; auto|].
      exists (S n). intros [|fuel] Hf; [lia|]. cbn [visit]. rewrite Ef.
      rewrite get_children_kids. cbn [kids].
      change ((fix loop (cs0 : list node) (st : vstate) (result : R) : outcome (vstate * R) :=
                 match cs0 with
                 | [] => Val (st, result)
                 | c :: rest =>
                     if v_more K c result then
                       let! (st0, child_result) := visit K fuel c st in
                       loop rest st0 (v_aggregate K result child_result)
                     else Val (st, result)
                 end) cs (v, tmp) (v_default K)) with (vloop fuel cs (v, tmp) (v_default K)).
      rewrite Hn by lia. reflexivity.
  Qed.

  (** A visitor that overrides nothing for rules and never stops early sees the leaves in order. *)
  Definition leaf_step (v : V) (t : node) : V :=
    match t with
    | Leaf _ false _ _ _ => fst (v_terminal K t v)
    | Leaf _ true _ _ _ => fst (v_error K t v)
    | Rule _ _ _ _ _ _ => v
    end.

  Lemma visits_frontier t : (forall x, v_rule K x = None) -> (forall x r, v_more K x r = true) ->
    forall v v' r, visits K t v v' r -> v' = fold_left leaf_step (frontier t) v.
  Proof.
    intros Hr Hm. induction t as [i er ty s x|i p k x a cs IH] using node_ind'; intros v v' r H.
    - inversion H as [t0 v0 Ht|t0 v0 Ht|t0 v0 f Ht Hf|t0 v0 v0' r0 Ht Hf Hl]; subst; cbn.
      + destruct Ht as (? & ? & ? & ? & [= -> -> -> -> ->]). reflexivity.
      + destruct Ht as (? & ? & ? & ? & [= -> -> -> -> ->]). reflexivity.
      + rewrite Hr in Hf. discriminate.
      + destruct Ht as (? & ? & ? & ? & ? & Ht). discriminate.
    - inversion H as [t0 v0 Ht|t0 v0 Ht|t0 v0 f Ht Hf|t0 v0 v0' r0 Ht Hf Hl]; subst.
      + destruct Ht as (? & ? & ? & ? & Ht). discriminate.
      + destruct Ht as (? & ? & ? & ? & Ht). discriminate.
      + rewrite Hr in Hf. discriminate.
      + cbn [kids] in Hl. cbn [frontier]. rewrite fold_left_flat_map.
        clear H Ht Hf. remember (v_default K) as acc eqn:Ea. clear Ea.
        revert v acc Hl. induction IH as [|c cs IHc _ IHcs]; intros v acc Hl; inversion Hl; subst; cbn.
        * reflexivity.
        * rewrite Hm in *. discriminate.
        * erewrite IHcs by eassumption. f_equal. eapply IHc. eassumption.
  Qed.

  (** A plain context cannot be visited. *)
  Lemma visit_plain t st : plain_rule t -> exists n, forall fuel, (n <= fuel)%nat -> visit K fuel t st = Panics.
  Proof. intros (i & k & x & a & cs & ->). exists 1%nat. intros [|fuel] Hf; [lia|]. reflexivity. Qed.
End Visit.
