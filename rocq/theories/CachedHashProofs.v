(** Proofs for C103. *)
From Coq Require Import ZArith List Bool Lia.
From Verif Require Import Outcome AtnModel PredContextModel PredContextProofs SemContextModel SemContextProofs
  LexerModel LexMatchProofs CachedHashModel CachedHashSpec.
Import ListNotations.
Local Open Scope Z_scope.
Local Open Scope outcome_scope.

Lemma hctx_ind' (P : hctx -> Prop) :
  (forall h r, P (HSingleton h r None)) ->
  (forall h r q, P q -> P (HSingleton h r (Some q))) ->
  (forall h rs ps, (forall q, In (Some q) ps -> P q) -> P (HArray h rs ps)) ->
  forall c, P c.
Proof.
  intros H1 H2 H3. fix IH 1. intros [h r [q|]|h rs ps].
  - apply H2, IH.
  - apply H1.
  - apply H3. induction ps as [|[x|] ps IHps]; intros q I.
    + destruct I.
    + destruct I as [E|I]; [injection E as <-; apply IH|apply IHps, I].
    + destruct I as [E|I]; [discriminate|apply IHps, I].
Qed.

(** One parent for each return state, everywhere. *)
Inductive even : pctx -> Prop :=
| Even_single : forall r p, (forall q, p = Some q -> even q) -> even (Singleton r p)
| Even_array : forall rs ps, length ps = length rs -> (forall q, In (Some q) ps -> even q) ->
    even (Array rs ps).

Definition opt_even (p : option pctx) := forall q, p = Some q -> even q.

Lemma zlist_eqb_refl x : zlist_eqb x x = true.
Proof. induction x; cbn; auto. now rewrite Z.eqb_refl. Qed.
Lemma zlist_eqb_true x : forall y, zlist_eqb x y = true -> x = y.
Proof.
  induction x as [|u x IH]; intros [|v y] H; cbn in H; try discriminate; auto.
  apply andb_true_iff in H as (H1 & H2). apply Z.eqb_eq in H1 as ->. f_equal. auto.
Qed.

Lemma even_single_inv r p : even (Singleton r p) -> opt_even p.
Proof. intros H. inversion H. auto. Qed.
Lemma even_array_inv rs ps : even (Array rs ps) -> length ps = length rs /\ (forall p, In p ps -> opt_even p).
Proof. intros H. inversion H as [|x y L A]; subst. split; auto. intros p I q ->. auto. Qed.

Lemma even_eqb : forall a, even a -> forall b, even b -> pctx_eqb a b = true -> a = b.
Proof.
  induction a as [r | r q IH | rs ps IH] using pctx_ind'; intros Ha b Hb H.
  - destruct b as [r' p'|]; [|discriminate]. cbn in H.
    apply andb_true_iff in H as (H1 & H2). apply Z.eqb_eq in H1 as ->. destruct p'; [discriminate|auto].
  - destruct b as [r' p'|]; [|discriminate]. cbn in H.
    apply andb_true_iff in H as (H1 & H2). apply Z.eqb_eq in H1 as ->. destruct p' as [q'|]; [|discriminate].
    do 2 f_equal. apply IH; auto.
    + now apply (even_single_inv _ _ Ha).
    + now apply (even_single_inv _ _ Hb).
  - destruct b as [|rs' ps']; [discriminate|].
    apply even_array_inv in Ha as (La & Ea), Hb as (Lb & Eb).
    cbn in H. apply andb_true_iff in H as (H1 & H2). apply zlist_eqb_true in H1 as <-.
    f_equal. assert (L : length ps = length ps') by congruence. clear La Lb rs.
    revert ps' L Eb H2. induction ps as [|u ps IHps]; intros [|v ps'] L Eb H2; try discriminate; auto.
    apply andb_true_iff in H2 as (H2 & H3). f_equal.
    + destruct u as [u|], v as [v|]; try discriminate; auto. f_equal. apply IH; auto.
      * now left.
      * apply (Ea (Some u)); [now left|auto].
      * apply (Eb (Some v)); [now left|auto].
    + apply IHps; auto.
      * intros q I. apply IH. now right.
      * intros p I. apply Ea. now right.
      * intros p I. apply Eb. now right.
Qed.

Lemma opt_even_eqb x y : opt_even x -> opt_even y -> opt_pctx_eqb x y = true -> x = y.
Proof.
  intros Hx Hy H. destruct x as [x|], y as [y|]; try discriminate; auto.
  f_equal. apply even_eqb; auto.
Qed.

Section Dress.
  Variable finish : list write -> Z.
  Variable ptr_eq : hctx -> hctx -> bool.
  Hypothesis ptr_ok : one_value ptr_eq.

  (** a context with the right hash everywhere *)
  Fixpoint dress (c : pctx) : hctx :=
    match c with
    | Singleton r p => calc_hash finish (HSingleton 0 r (match p with None => None | Some q => Some (dress q) end))
    | Array rs ps => calc_hash finish (HArray 0 rs (map (fun p => match p with None => None | Some q => Some (dress q) end) ps))
    end.
  Definition odress (p : option pctx) : option hctx := match p with None => None | Some q => Some (dress q) end.
  Definition dentry (e : (pctx * pctx) * pctx) : (hctx * hctx) * hctx :=
    let '((x, y), r) := e in ((dress x, dress y), dress r).
  Definition dcache (k : option cache) : option hcache := option_map (map dentry) k.
  Definition dresult (x : outcome (pctx * option cache)) : outcome (hctx * option hcache) :=
    match x with Val (r, k) => Val (dress r, dcache k) | Panics => Panics | NoFuel => NoFuel end.
  Definition thehash (c : pctx) : Z := hash_code (dress c).

  Lemma plain_calc c : plain (calc_hash finish c) = plain c.
  Proof. now destruct c. Qed.
  Lemma calc_calc c : calc_hash finish (calc_hash finish c) = calc_hash finish c.
  Proof. now destruct c. Qed.

  Lemma plain_dress : forall c, plain (dress c) = c.
  Proof.
    induction c as [r | r q IH | rs ps IH] using pctx_ind'; cbn; auto.
    - now rewrite IH.
    - f_equal. rewrite map_map. rewrite <- map_id. apply map_ext_in. intros [q|] I; auto. now rewrite IH.
  Qed.

  Lemma calc_dress c : calc_hash finish (dress c) = dress c.
  Proof. destruct c; cbn [dress]; apply calc_calc. Qed.

  Lemma dress_single h r p : calc_hash finish (HSingleton h r (odress p)) = dress (Singleton r p).
  Proof. reflexivity. Qed.
  Lemma dress_array h rs ps : calc_hash finish (HArray h rs (map odress ps)) = dress (Array rs ps).
  Proof. reflexivity. Qed.
  Lemma dress_empty : new_empty finish = dress EMPTY.
  Proof. reflexivity. Qed.

  Lemma heqb_plain : forall a b, hctx_eqb ptr_eq a b = true -> pctx_eqb (plain a) (plain b) = true.
  Proof.
    induction a as [h r | h r q IH | h rs ps IH] using hctx_ind'; intros b H.
    - destruct b as [h' r' p'|]; [|discriminate]. cbn in *.
      apply andb_true_iff in H as (H1 & H2). apply andb_true_iff in H1 as (_ & ->). now destruct p'.
    - destruct b as [h' r' p'|]; [|discriminate]. cbn in *.
      apply andb_true_iff in H as (H1 & H2). apply andb_true_iff in H1 as (_ & ->).
      destruct p' as [q'|]; [|discriminate]. cbn. apply orb_true_iff in H2 as [H2|H2]; auto.
      apply ptr_ok in H2 as <-. apply pctx_eqb_refl.
    - destruct b as [|h' rs' ps']; [discriminate|]. cbn in *.
      apply andb_true_iff in H as (H1 & H2). apply andb_true_iff in H1 as (_ & ->). cbn [andb].
      revert ps' H2. induction ps as [|u ps IHps]; intros [|v ps'] H2; auto.
      cbn [map]. apply andb_true_iff in H2 as (H2 & H3). apply andb_true_iff. split.
      + destruct u as [u|], v as [v|]; try discriminate; auto.
        apply orb_true_iff in H2 as [H2|H2].
        * apply ptr_ok in H2 as <-. apply pctx_eqb_refl.
        * apply IH; auto. now left.
      + apply IHps; auto. intros q I. apply IH. now right.
  Qed.

  Lemma heqb_refl : forall a, hctx_eqb ptr_eq a a = true.
  Proof.
    induction a as [h r | h r q IH | h rs ps IH] using hctx_ind'; cbn.
    - now rewrite !Z.eqb_refl.
    - now rewrite !Z.eqb_refl, IH, orb_true_r.
    - rewrite Z.eqb_refl, zlist_eqb_refl. cbn [andb].
      induction ps as [|[u|] ps IHps]; auto.
      + rewrite IH by now left. rewrite orb_true_r. apply IHps. intros q I. apply IH. now right.
      + apply IHps. intros q I. apply IH. now right.
  Qed.

  Lemma arc_refl a : arc_eqb ptr_eq a a = true.
  Proof. unfold arc_eqb. now rewrite heqb_refl, orb_true_r. Qed.

  Lemma heqb_dress a b : even a -> even b -> hctx_eqb ptr_eq (dress a) (dress b) = pctx_eqb a b.
  Proof.
    intros Ha Hb. apply eq_true_iff_eq. split; intros H.
    - apply heqb_plain in H. now rewrite !plain_dress in H.
    - apply even_eqb in H as <-; auto. apply heqb_refl.
  Qed.

  Lemma arc_dress a b : even a -> even b -> arc_eqb ptr_eq (dress a) (dress b) = pctx_eqb a b.
  Proof.
    intros Ha Hb. unfold arc_eqb. rewrite (heqb_dress a b Ha Hb).
    destruct (ptr_eq (dress a) (dress b)) eqn:P; auto. apply ptr_ok in P.
    rewrite <- (plain_dress a), <- (plain_dress b), P. now rewrite pctx_eqb_refl.
  Qed.

  Lemma opt_dress x y : opt_even x -> opt_even y ->
    opt_hctx_eqb ptr_eq (odress x) (odress y) = opt_pctx_eqb x y.
  Proof.
    intros Hx Hy. destruct x as [x|], y as [y|]; auto. cbn. apply arc_dress; auto.
  Qed.

  Lemma odress_inj x y : odress x = odress y -> x = y.
  Proof.
    destruct x as [x|], y as [y|]; try discriminate; auto. intros [= H]. f_equal.
    now rewrite <- (plain_dress x), <- (plain_dress y), H.
  Qed.

  (** caches *)
  Definition even_cache (k : option cache) : Prop :=
    forall l x y r, k = Some l -> In ((x, y), r) l -> even x /\ even y /\ even r.

  Lemma cache_dress l a b :
    (forall x y r, In ((x, y), r) l -> even x /\ even y /\ even r) -> even a -> even b ->
    hcache_get ptr_eq (map dentry l) (dress a) (dress b) = odress (cache_get l a b) /\
    opt_even (cache_get l a b).
  Proof.
    intros H Ha Hb. induction l as [|((x, y), r) l IH]; cbn.
    - split; [auto | intros q; discriminate].
    - destruct (H x y r) as (Ex & Ey & Er); [now left|].
      rewrite !arc_dress by auto. destruct (pctx_eqb x a && pctx_eqb y b).
      + split; auto. intros q [= <-]. auto.
      + apply IH. intros x' y' r' I. apply H. now right.
  Qed.

  (** common parents *)
  Lemma uniq_dress u p : (forall x, In x u -> opt_even x) -> opt_even p ->
    huniq_get ptr_eq (map odress u) (odress p) = option_map odress (uniq_get u p) /\
    (forall x, uniq_get u p = Some x -> x = p).
  Proof.
    intros H Hp. induction u as [|x u IH]; cbn.
    - split; [auto | intros x; discriminate].
    - rewrite opt_dress; [|apply H; now left|auto]. destruct (opt_pctx_eqb x p) eqn:E.
      + split; auto. intros y [= <-]. apply opt_even_eqb; auto. apply H. now left.
      + apply IH. intros y I. apply H. now right.
  Qed.

  Lemma uniq_parents_dress ps : (forall x, In x ps -> opt_even x) ->
    huniq_parents ptr_eq (map odress ps) = map odress (uniq_parents ps) /\
    (forall x, In x (uniq_parents ps) -> opt_even x).
  Proof.
    intros H. unfold huniq_parents, uniq_parents.
    assert (G : forall u, (forall x, In x u -> opt_even x) ->
      fold_left (fun u p => match huniq_get ptr_eq u p with Some _ => u | None => u ++ [p] end)
        (map odress ps) (map odress u) =
      map odress (fold_left (fun u p => match uniq_get u p with Some _ => u | None => u ++ [p] end) ps u) /\
      (forall x, In x (fold_left (fun u p => match uniq_get u p with Some _ => u | None => u ++ [p] end) ps u) ->
        opt_even x)).
    { induction ps as [|p ps IH]; intros u Hu; cbn.
      - auto.
      - destruct (uniq_dress u p) as (-> & _); [auto|apply H; now left|].
        destruct (uniq_get u p); cbn [option_map].
        + apply IH; auto. intros x I. apply H. now right.
        + replace (map odress u ++ [odress p]) with (map odress (u ++ [p])) by now rewrite map_app.
          apply IH.
          * intros x I. apply H. now right.
          * intros x I. apply in_app_iff in I as [I|[<-|[]]]; auto. apply H. now left. }
    apply (G []). intros x [].
  Qed.

  Lemma combine_dress ps : (forall x, In x ps -> opt_even x) ->
    hcombine_common_parents ptr_eq (map odress ps) =
      match combine_common_parents ps with Val l => Val (map odress l) | Panics => Panics | NoFuel => NoFuel end /\
    (forall l, combine_common_parents ps = Val l -> l = ps).
  Proof.
    intros H. unfold hcombine_common_parents, combine_common_parents.
    destruct (uniq_parents_dress ps H) as (-> & U). generalize (uniq_parents ps), U. clear U. intros u U.
    induction ps as [|p ps IH]; cbn.
    - split; auto. now intros l [= <-].
    - destruct (uniq_dress u p) as (-> & E); [auto|apply H; now left|].
      destruct (uniq_get u p) as [x|]; cbn [option_map unwrap obindo].
      + specialize (E x eq_refl). subst x.
        destruct IH as (-> & F). { intros y I. apply H. now right. }
        destruct (map_unwrap _ ps) as [l| |]; cbn [obindo].
        * split; auto. intros l' [= <-]. f_equal. auto.
        * split; auto. intros l'. discriminate.
        * split; auto. intros l'. discriminate.
      + split; auto. intros l. discriminate.
  Qed.

  (** ** Merging *)
  Section Rec.
    Variable wild : bool.

    (** [hrec] does on dressed contexts what [rec] does on plain ones *)
    Definition agrees (rec : rec_merge) (hrec : hrec_merge) : Prop :=
      forall a b k, even a -> even b -> even_cache k ->
        hrec (dress a) (dress b) (dcache k) = dresult (rec a b k) /\
        (forall r k', rec a b k = Val (r, k') -> even r /\ even_cache k').

    Lemma even_EMPTY : even EMPTY.
    Proof. constructor. intros q; discriminate. Qed.
    Lemma even_two r1 r2 p1 p2 : opt_even p1 -> opt_even p2 -> even (Array [r1; r2] [p1; p2]).
    Proof.
      intros H1 H2. constructor; auto. intros q [E|[E|[]]].
      - now apply H1.
      - now apply H2.
    Qed.
    Lemma opt_even_none : opt_even None.
    Proof. intros q; discriminate. Qed.

    Lemma empty_dress r p : hsingleton_is_empty r (odress p) = singleton_is_empty r p.
    Proof. now destruct p. Qed.

    Lemma root_dress ra pa rb pb : opt_even pa -> opt_even pb ->
      hmerge_root finish ra (odress pa) rb (odress pb) wild = odress (merge_root ra pa rb pb wild) /\
      opt_even (merge_root ra pa rb pb wild).
    Proof.
      intros Ha Hb. unfold hmerge_root, merge_root. rewrite !empty_dress.
      assert (T : forall r p, opt_even p ->
        opt_even (Some (Array [r; EMPTY_RETURN_STATE] [p; None]))).
      { intros r p Hp q [= <-]. apply even_two; auto. apply opt_even_none. }
      assert (M : opt_even (Some EMPTY)) by (intros q [= <-]; apply even_EMPTY).
      destruct wild, (singleton_is_empty ra pa), (singleton_is_empty rb pb); cbn [orb andb];
        (split; [reflexivity | auto using opt_even_none]).
    Qed.

    Lemma singletons_dress rec hrec ra pa rb pb k :
      agrees rec hrec -> opt_even pa -> opt_even pb -> even_cache k ->
      forall ha hb,
      hmerge_singletons finish ptr_eq hrec ha ra (odress pa) hb rb (odress pb) wild (dcache k) =
        dresult (merge_singletons rec ra pa rb pb wild k) /\
      (forall r k', merge_singletons rec ra pa rb pb wild k = Val (r, k') -> even r /\ even_cache k').
    Proof.
      intros A Ha Hb Hk ha hb. unfold hmerge_singletons, merge_singletons.
      destruct (root_dress ra pa rb pb Ha Hb) as (-> & R).
      destruct (merge_root ra pa rb pb wild) as [r|]; cbn [odress].
      - split; auto. intros r' k' [= <- <-]. auto.
      - destruct (ra =? rb) eqn:E.
        + apply Z.eqb_eq in E as <-.
          destruct pa as [qa|]; cbn [odress unwrap obindo]; [|split; [auto|intros; discriminate]].
          destruct pb as [qb|]; cbn [odress unwrap obindo]; [|split; [auto|intros; discriminate]].
          destruct (A qa qb k) as (-> & F); auto.
          destruct (rec qa qb k) as [(m, k1)| |]; cbn [dresult obindo];
            [|split; [auto|intros; discriminate]|split; [auto|intros; discriminate]].
          destruct (F m k1 eq_refl) as (Em & Ek). split.
          * f_equal. f_equal. unfold alloc.
            destruct (ptr_eq (dress m) (dress qa)) eqn:P1.
            { apply ptr_ok in P1. rewrite <- (plain_dress m), P1, plain_dress.
              now rewrite <- (dress_single ha ra (Some qa)). }
            destruct (ptr_eq (dress m) (dress qb)) eqn:P2.
            { apply ptr_ok in P2. rewrite <- (plain_dress m), P2, plain_dress.
              now rewrite <- (dress_single hb ra (Some qb)). }
            unfold new_singleton. now rewrite calc_calc, <- (dress_single 0 ra (Some m)).
          * intros r k' [= <- <-]. split; auto. constructor. intros q [= <-]. auto.
        + rewrite opt_dress by auto. destruct (opt_pctx_eqb pa pb).
          * destruct (ra <=? rb).
            { split; auto. intros r k' [= <- <-]. split; auto. now apply even_two. }
            { split; auto. intros r k' [= <- <-]. split; auto. now apply even_two. }
          * destruct (ra <=? rb).
            { split; auto. intros r k' [= <- <-]. split; auto. now apply even_two. }
            { split; auto. intros r k' [= <- <-]. split; auto. now apply even_two. }
    Qed.

    Definition evens (ps : list (option pctx)) := forall p, In p ps -> opt_even p.

    Lemma rest_dress rs : forall ps, evens ps ->
      happend_rest rs (map odress ps) =
        match append_rest rs ps with Val (x, y) => Val (x, map odress y) | Panics => Panics | NoFuel => NoFuel end /\
      (forall x y, append_rest rs ps = Val (x, y) -> evens y /\ length y = length x).
    Proof.
      induction rs as [|r rs IH]; intros ps H; cbn.
      - split; auto. intros x y [= <- <-]. split; auto. intros p [].
      - destruct ps as [|p ps]; cbn.
        + split; auto; intros; discriminate.
        + destruct (IH ps) as (-> & F). { intros q I. apply H. now right. }
          destruct (append_rest rs ps) as [(x, y)| |]; cbn.
          * destruct (F x y eq_refl) as (F1 & F2). split; auto. intros x' y' [= <- <-]. split.
            { intros q [<-|I]; auto. apply H. now left. }
            { cbn [length]. now rewrite F2. }
          * split; auto; intros; discriminate.
          * split; auto; intros; discriminate.
    Qed.

    Definition dtriple (x : outcome (list Z * list (option pctx) * option cache))
        : outcome (list Z * list (option hctx) * option hcache) :=
      match x with
      | Val (rs, ps, k) => Val (rs, map odress ps, dcache k)
      | Panics => Panics
      | NoFuel => NoFuel
      end.

    Lemma loop_dress rec hrec : agrees rec hrec -> forall fuel ars aps brs bps k,
      evens aps -> evens bps -> even_cache k ->
      hmerge_arrays_loop ptr_eq fuel hrec ars (map odress aps) brs (map odress bps) (dcache k) =
        dtriple (merge_arrays_loop fuel rec ars aps brs bps k) /\
      (forall rs ps k', merge_arrays_loop fuel rec ars aps brs bps k = Val (rs, ps, k') ->
         evens ps /\ length ps = length rs /\ even_cache k').
    Proof.
      intros A. induction fuel as [|fuel IH]; intros ars aps brs bps k Ha Hb Hk.
      - split; auto. intros; discriminate.
      - assert (T : (let! (x1, y1) := happend_rest ars (map odress aps) in
                     let! (x2, y2) := happend_rest brs (map odress bps) in
                     Val (x1 ++ x2, y1 ++ y2, dcache k)) =
                    dtriple (let! (x1, y1) := append_rest ars aps in
                             let! (x2, y2) := append_rest brs bps in
                             Val (x1 ++ x2, y1 ++ y2, k)) /\
                    (forall rs ps k', (let! (x1, y1) := append_rest ars aps in
                             let! (x2, y2) := append_rest brs bps in
                             Val (x1 ++ x2, y1 ++ y2, k)) = Val (rs, ps, k') ->
                     evens ps /\ length ps = length rs /\ even_cache k')).
        { destruct (rest_dress ars aps Ha) as (-> & F1). destruct (rest_dress brs bps Hb) as (-> & F2).
          destruct (append_rest ars aps) as [(x1, y1)| |]; cbn; try (split; auto; intros; discriminate).
          destruct (append_rest brs bps) as [(x2, y2)| |]; cbn; try (split; auto; intros; discriminate).
          destruct (F1 x1 y1 eq_refl) as (G1 & G2), (F2 x2 y2 eq_refl) as (G3 & G4).
          split; [now rewrite map_app|]. intros rs ps k' [= <- <- <-]. split; [|split; auto].
          - intros p I. apply in_app_iff in I as [I|I]; auto.
          - rewrite !app_length. congruence. }
        destruct aps as [|ap aps]; [exact T|]. destruct bps as [|bp bps]; [exact T|]. clear T.
        assert (Ha' : evens aps) by (intros p I; apply Ha; now right).
        assert (Hb' : evens bps) by (intros p I; apply Hb; now right).
        assert (Hp : opt_even ap) by (apply Ha; now left).
        assert (Hq : opt_even bp) by (apply Hb; now left).
        cbn [map hmerge_arrays_loop merge_arrays_loop].
        destruct ars as [|ra ars]; [split; auto; intros; discriminate|].
        destruct brs as [|rb brs]; [split; auto; intros; discriminate|].
        assert (Step : forall (X : outcome (list Z * list (option pctx) * option cache)) HX r p,
          opt_even p -> HX = dtriple X ->
          (forall rs ps k', X = Val (rs, ps, k') -> evens ps /\ length ps = length rs /\ even_cache k') ->
          (let! (rs, ps, k) := HX in Val (r :: rs, odress p :: ps, k)) =
            dtriple (let! (rs, ps, k) := X in Val (r :: rs, p :: ps, k)) /\
          (forall rs ps k', (let! (rs, ps, k) := X in Val (r :: rs, p :: ps, k)) = Val (rs, ps, k') ->
             evens ps /\ length ps = length rs /\ even_cache k')).
        { intros X HX r p Ep -> F. destruct X as [((rs, ps), k1)| |]; cbn; try (split; auto; intros; discriminate).
          destruct (F rs ps k1 eq_refl) as (F1 & F2 & F3). split; auto.
          intros rs' ps' k' [= <- <- <-]. split; [|split; auto].
          - intros q [<-|I]; auto.
          - cbn. congruence. }
        destruct (ra =? rb).
        + replace (match odress ap with
                   | Some _ => match odress bp with Some _ => false | None => false end
                   | None => match odress bp with Some _ => false | None => true end end)
            with (match ap, bp with None, None => true | _, _ => false end)
            by (destruct ap, bp; reflexivity).
          assert (X : match odress ap, odress bp with Some x, Some y => arc_eqb ptr_eq x y | _, _ => false end =
                      match ap, bp with Some x, Some y => pctx_eqb x y | _, _ => false end).
          { destruct ap as [x|], bp as [y|]; auto. cbn. apply arc_dress; auto. }
          replace (match odress ap, odress bp with None, None => true | _, _ => false end)
            with (match ap, bp with None, None => true | _, _ => false end)
            by (destruct ap, bp; reflexivity).
          rewrite X. clear X.
          destruct ((ra =? EMPTY_RETURN_STATE) && _ || _).
          * destruct (IH ars aps brs bps k Ha' Hb' Hk) as (I1 & I2). apply Step; auto.
          * destruct ap as [qa|]; cbn [odress unwrap obindo]; [|split; auto; intros; discriminate].
            destruct bp as [qb|]; cbn [odress unwrap obindo]; [|split; auto; intros; discriminate].
            destruct (A qa qb k) as (-> & F); auto.
            destruct (rec qa qb k) as [(m, k1)| |]; cbn [dresult obindo];
              try (split; auto; intros; discriminate).
            destruct (F m k1 eq_refl) as (Em & Ek).
            destruct (IH ars aps brs bps k1 Ha' Hb' Ek) as (I1 & I2).
            apply (Step _ _ ra (Some m)); auto. intros q [= <-]. auto.
        + destruct (ra <? rb).
          * destruct (IH ars aps (rb :: brs) (bp :: bps) k Ha' Hb Hk) as (I1 & I2). apply Step; auto.
          * destruct (IH (ra :: ars) (ap :: aps) brs bps k Ha Hb' Hk) as (I1 & I2). apply Step; auto.
    Qed.

    Definition arrays_of (ps : list Z * list (option pctx)) : list Z * list (option hctx) :=
      (fst ps, map odress (snd ps)).

    Lemma arrays_dress rec hrec a b k : agrees rec hrec -> evens (snd a) -> evens (snd b) -> even_cache k ->
      match merge_arrays rec a b k with
      | Val (m, k') => exists rs ps, m = Array rs ps /\
          hmerge_arrays ptr_eq hrec (arrays_of a) (arrays_of b) (dcache k) =
            Val (HArray (-1) rs (map odress ps), dcache k') /\ even m /\ even_cache k'
      | Panics => hmerge_arrays ptr_eq hrec (arrays_of a) (arrays_of b) (dcache k) = Panics
      | NoFuel => hmerge_arrays ptr_eq hrec (arrays_of a) (arrays_of b) (dcache k) = NoFuel
      end.
    Proof.
      intros A Ha Hb Hk. destruct a as (ars, aps), b as (brs, bps). cbn [snd] in *.
      unfold merge_arrays, hmerge_arrays, arrays_of. cbn [fst snd]. rewrite !map_length.
      destruct (loop_dress rec hrec A (S (length aps + length bps)) ars aps brs bps k Ha Hb Hk) as (-> & F).
      destruct (merge_arrays_loop _ rec ars aps brs bps k) as [((rs, ps), k1)| |]; cbn [dtriple obindo]; auto.
      destruct (F rs ps k1 eq_refl) as (F1 & F2 & F3).
      destruct (combine_dress ps F1) as (-> & G).
      destruct (combine_common_parents ps) as [l| |]; cbn [obindo]; auto.
      rewrite (G l eq_refl). exists rs, ps. split; [|split; [|split]]; auto.
      constructor; auto. intros q I. now apply (F1 (Some q)).
    Qed.
  End Rec.

  Lemma to_array_dress c : hto_array (dress c) = arrays_of (to_array c).
  Proof. now destruct c. Qed.
  Lemma to_array_even c : even c -> evens (snd (to_array c)).
  Proof.
    intros H. destruct c as [r p|rs ps]; cbn.
    - apply even_single_inv in H. intros q [<-|[]]. auto.
    - now apply even_array_inv in H.
  Qed.
  Lemma is_empty_dress c : hpc_is_empty (dress c) = pc_is_empty c.
  Proof. destruct c as [r [q|]|[|r rs] ps]; reflexivity. Qed.

  Lemma merge_dress wild : forall fuel, agrees (merge thehash fuel wild) (hmerge finish ptr_eq fuel wild).
  Proof.
    induction fuel as [|fuel IH]; intros a b k Ha Hb Hk.
    - split; auto. intros; discriminate.
    - cbn [hmerge merge]. rewrite arc_dress by auto.
      destruct (pctx_eqb a b) eqn:Eab.
      { split; auto. intros r k' [= <- <-]. auto. }
      assert (Old : match dcache k with
                    | None => None
                    | Some c => match hcache_get ptr_eq c (dress a) (dress b) with
                                | Some r => Some r | None => hcache_get ptr_eq c (dress b) (dress a) end
                    end =
                    odress match k with
                    | None => None
                    | Some c => match cache_get c a b with Some r => Some r | None => cache_get c b a end
                    end /\
                    opt_even match k with
                    | None => None
                    | Some c => match cache_get c a b with Some r => Some r | None => cache_get c b a end
                    end).
      { destruct k as [l|]; cbn; [|split; [auto|apply opt_even_none]].
        destruct (cache_dress l a b) as (-> & O1); auto.
        { intros x y r I. now apply (Hk l x y r). }
        destruct (cache_dress l b a) as (-> & O2); auto.
        { intros x y r I. now apply (Hk l x y r). }
        destruct (cache_get l a b) as [r|]; auto. }
      destruct Old as (-> & OE).
      destruct (match k with None => None | Some c => _ end) as [old|]; cbn [odress].
      { split; auto. intros r k' [= <- <-]. split; auto. }
      clear OE.
      assert (Fin : forall X HX, HX = dresult X ->
        (forall r k', X = Val (r, k') -> even r /\ even_cache k') ->
        (let! (r, k) := HX in
         if hash_code r =? 0 then Panics
         else Val (r, match k with None => None | Some c => Some (((dress a, dress b), r) :: c) end)) =
        dresult (let! (r, k) := X in
         if thehash r =? 0 then Panics
         else Val (r, match k with None => None | Some c => Some (((a, b), r) :: c) end)) /\
        (forall r k', (let! (r, k) := X in
         if thehash r =? 0 then Panics
         else Val (r, match k with None => None | Some c => Some (((a, b), r) :: c) end)) = Val (r, k') ->
         even r /\ even_cache k')).
      { intros X HX -> F. destruct X as [(r, k1)| |]; cbn; try (split; auto; intros; discriminate).
        destruct (F r k1 eq_refl) as (F1 & F2). fold (thehash r).
        destruct (thehash r =? 0); cbn; try (split; auto; intros; discriminate).
        split; [now destruct k1|]. intros r' k' [= <- <-]. split; auto.
        destruct k1 as [l|]; intros l' x y m; [|discriminate]. intros [= <-] [I|I].
        - injection I as <- <- <-. auto.
        - now apply (F2 l x y m). }
      assert (Arr :
        (let! (m, k) := hmerge_arrays ptr_eq (hmerge finish ptr_eq fuel wild) (hto_array (dress a)) (hto_array (dress b)) (dcache k) in
         Val (if hctx_eqb ptr_eq (alloc finish m) (dress a) then dress a
              else if hctx_eqb ptr_eq (alloc finish m) (dress b) then dress b else alloc finish m, k)) =
        dresult (merge_arrays (merge thehash fuel wild) (to_array a) (to_array b) k) /\
        (forall r k', merge_arrays (merge thehash fuel wild) (to_array a) (to_array b) k = Val (r, k') ->
           even r /\ even_cache k')).
      { rewrite !to_array_dress.
        pose proof (arrays_dress _ _ (to_array a) (to_array b) k IH (to_array_even a Ha) (to_array_even b Hb) Hk) as G.
        destruct (merge_arrays _ (to_array a) (to_array b) k) as [(m, k1)| |].
        - destruct G as (rs & ps & -> & -> & Em & Ek). cbn [obindo dresult]. unfold alloc. rewrite dress_array.
          split.
          + rewrite !heqb_dress by auto.
            destruct (pctx_eqb (Array rs ps) a) eqn:E1; [apply even_eqb in E1 as <-; auto|].
            destruct (pctx_eqb (Array rs ps) b) eqn:E2; [apply even_eqb in E2 as <-; auto|].
            auto.
          + intros r k' [= <- <-]. auto.
        - rewrite G. split; auto. intros; discriminate.
        - rewrite G. split; auto. intros; discriminate. }
      assert (Wild : forall X HX, HX = dresult X ->
        (forall r k', X = Val (r, k') -> even r /\ even_cache k') ->
        (if wild then
           let! ea := hpc_is_empty (dress a) in
           if ea then Val (new_empty finish, dcache k)
           else let! eb := hpc_is_empty (dress b) in
                if eb then Val (new_empty finish, dcache k) else HX
         else HX) =
        dresult (if wild then
           let! ea := pc_is_empty a in
           if ea then Val (EMPTY, k)
           else let! eb := pc_is_empty b in if eb then Val (EMPTY, k) else X
         else X) /\
        (forall r k', (if wild then
           let! ea := pc_is_empty a in
           if ea then Val (EMPTY, k)
           else let! eb := pc_is_empty b in if eb then Val (EMPTY, k) else X
         else X) = Val (r, k') -> even r /\ even_cache k')).
      { intros X HX -> F. rewrite !is_empty_dress. destruct wild; auto.
        destruct (pc_is_empty a) as [[|]| |]; cbn [obindo]; try (split; auto; intros; discriminate).
        - split; [reflexivity|]. intros r k' [= <- <-]. split; auto using even_EMPTY.
        - destruct (pc_is_empty b) as [[|]| |]; cbn [obindo]; try (split; auto; intros; discriminate).
          split; [reflexivity|]. intros r k' [= <- <-]. split; auto using even_EMPTY. }
      destruct (Fin _ _ (proj1 Arr) (proj2 Arr)) as (F1 & F2).
      destruct a as [ra pa|ars aps].
      + destruct b as [rb pb|brs bps].
        * pose proof (singletons_dress wild _ _ ra pa rb pb k IH (even_single_inv _ _ Ha) (even_single_inv _ _ Hb) Hk) as S1.
          destruct (S1 (thehash (Singleton ra pa)) (thehash (Singleton rb pb))) as (S2 & S3).
          apply (Fin _ _ S2 S3).
        * apply (Wild _ _ F1 F2).
      + destruct b as [rb pb|brs bps]; apply (Wild _ _ F1 F2).
  Qed.

  Lemma stack_dress follow stack :
    hfrom_rule_context finish follow stack =
      match from_rule_context follow stack with Val c => Val (dress c) | Panics => Panics | NoFuel => NoFuel end /\
    (forall c, from_rule_context follow stack = Val c -> even c).
  Proof.
    induction stack as [|s [|s' st] IH].
    - cbn. split; [reflexivity|]. intros c [= <-]. apply even_EMPTY.
    - cbn. split; [reflexivity|]. intros c [= <-]. apply even_EMPTY.
    - remember (s' :: st) as rest. cbn [hfrom_rule_context from_rule_context]. subst rest.
      destruct (s =? -1).
      + split; [reflexivity|]. intros c [= <-]. apply even_EMPTY.
      + destruct IH as (-> & F). destruct (from_rule_context follow (s' :: st)) as [p| |]; cbn [obindo];
          try (split; auto; intros; discriminate).
        destruct (follow s) as [f|]; cbn [unwrap obindo]; try (split; auto; intros; discriminate).
        split; [unfold alloc, new_singleton; now rewrite calc_calc, <- (dress_single 0 f (Some p))|].
        intros c [= <-]. constructor. intros q [= <-]. auto.
  Qed.

  (** ** Everything made is dressed *)
  Definition dressed (c : hctx) : Prop := exists p, even p /\ c = dress p.

  Lemma dressed_list ps : (forall q, In (Some q) ps -> dressed q) ->
    exists l, ps = map odress l /\ evens l.
  Proof.
    induction ps as [|p ps IH]; intros H.
    - exists []. split; auto. intros p [].
    - destruct IH as (l & -> & Hl). { intros q I. apply H. now right. }
      destruct p as [q|].
      + destruct (H q) as (c & Ec & ->); [now left|]. exists (Some c :: l). split; auto.
        intros p [<-|I]; auto. intros q [= <-]. auto.
      + exists (None :: l). split; auto. intros p [<-|I]; auto. apply opt_even_none.
  Qed.

  Lemma dressed_cache k :
    (forall l x y m, k = Some l -> In ((x, y), m) l -> dressed x /\ dressed y /\ dressed m) ->
    exists k0, k = dcache k0 /\ even_cache k0.
  Proof.
    destruct k as [l|]; intros H; [|exists None; split; auto; intros l x y r; discriminate].
    assert (G : exists l0, l = map dentry l0 /\
      forall x y r, In ((x, y), r) l0 -> even x /\ even y /\ even r).
    { specialize (H l). induction l as [|((x, y), m) l IH].
      - exists []. split; auto. intros x y r [].
      - destruct IH as (l0 & -> & G). { intros x' y' m' _ I. apply H; auto. now right. }
        destruct (H x y m eq_refl) as ((x0 & Ex & ->) & (y0 & Ey & ->) & (m0 & Em & ->)); [now left|].
        exists (((x0, y0), m0) :: l0). split; auto. intros x y r [I|I]; auto.
        injection I as <- <- <-. auto. }
    destruct G as (l0 & -> & G). exists (Some l0). split; auto. intros l x y r [= <-]. apply G.
  Qed.

  Lemma made_dressed : forall c, made finish ptr_eq c -> dressed c.
  Proof.
    fix IH 2. intros c [|p r H|ps rs L H|c' H|follow stack c' H|fuel wild a b k r k' Ma Mb Mk H].
    - exists EMPTY. split; [apply even_EMPTY|apply dress_empty].
    - destruct p as [q|].
      + destruct (IH q (H q eq_refl)) as (c' & Ec & ->). exists (Singleton r (Some c')). split; auto.
        constructor. intros q [= <-]. auto.
      + exists (Singleton r None). split; auto. constructor. intros; discriminate.
    - destruct (dressed_list ps) as (l & -> & Hl).
      { intros q I. apply IH, H, I. }
      exists (Array rs l). split.
      + constructor; [now rewrite map_length in L|]. intros q I. now apply (Hl (Some q)).
      + unfold alloc, new_array. apply dress_array.
    - destruct (IH c' H) as (p & Ep & ->). exists p. split; auto. apply calc_dress.
    - destruct (stack_dress follow stack) as (E & F). rewrite E in H.
      destruct (from_rule_context follow stack) as [p| |]; try discriminate. injection H as <-.
      exists p. auto.
    - destruct (IH a Ma) as (a0 & Ea & ->), (IH b Mb) as (b0 & Eb & ->).
      destruct (dressed_cache k) as (k0 & -> & Ek).
      { intros l x y m E I. destruct (Mk l x y m E I) as (M1 & M2 & M3). split; [|split].
        - apply IH, M1.
        - apply IH, M2.
        - apply IH, M3. }
      destruct (merge_dress wild fuel a0 b0 k0 Ea Eb Ek) as (E & F). rewrite E in H.
      destruct (merge thehash fuel wild a0 b0 k0) as [(r0, k1)| |]; try discriminate.
      cbn in H. injection H as <- <-. destruct (F r0 k1 eq_refl) as (F1 & _). exists r0. auto.
  Qed.

  Lemma dressed_made : forall p, even p -> made finish ptr_eq (dress p).
  Proof.
    induction p as [r | r q IH | rs ps IH] using pctx_ind'; intros E.
    - apply (Made_singleton finish ptr_eq None r). intros; discriminate.
    - apply (Made_singleton finish ptr_eq (Some (dress q)) r). intros q' [= <-]. apply IH.
      now apply (even_single_inv _ _ E).
    - apply even_array_inv in E as (L & E).
      apply (Made_array finish ptr_eq (map odress ps) rs); [now rewrite map_length|].
      intros q I. apply in_map_iff in I as ([p|] & [= <-] & I). apply IH; auto. now apply (E (Some p)).
  Qed.

  Lemma made_iff c : made finish ptr_eq c <-> dressed c.
  Proof.
    split; [apply made_dressed|]. intros (p & E & ->). now apply dressed_made.
  Qed.

  Lemma plain_dcache k : plain_cache (dcache k) = k.
  Proof.
    destruct k as [l|]; auto. cbn. rewrite map_map.
    assert (E : map (fun x => plain_entry (dentry x)) l = l).
    { induction l as [|((x, y), r) l IH]; auto. cbn. now rewrite !plain_dress, IH. }
    now rewrite E.
  Qed.

  Lemma plain_dresult x : plain_result (dresult x) = x.
  Proof. destruct x as [(r, k)| |]; auto. cbn. now rewrite plain_dress, plain_dcache. Qed.

  Lemma made_equal a b : made finish ptr_eq a -> made finish ptr_eq b ->
    (arc_eqb ptr_eq a b = true <-> plain a = plain b) /\ (plain a = plain b -> a = b).
  Proof.
    intros Ma Mb. apply made_dressed in Ma as (p & Ep & ->), Mb as (q & Eq & ->).
    rewrite arc_dress, !plain_dress by auto. split; [split|].
    - now apply even_eqb.
    - intros <-. apply pctx_eqb_refl.
    - now intros <-.
  Qed.

  Lemma made_merge fuel wild a b k :
    made finish ptr_eq a -> made finish ptr_eq b -> made_cache finish ptr_eq k ->
    plain_result (hmerge finish ptr_eq fuel wild a b k) =
      merge thehash fuel wild (plain a) (plain b) (plain_cache k) /\
    (forall r k', hmerge finish ptr_eq fuel wild a b k = Val (r, k') ->
       made finish ptr_eq r /\ made_cache finish ptr_eq k').
  Proof.
    intros Ma Mb Mk. apply made_dressed in Ma as (p & Ep & ->), Mb as (q & Eq & ->).
    destruct (dressed_cache k) as (k0 & -> & Ek).
    { intros l x y m E I. destruct (Mk l x y m E I) as (M1 & M2 & M3). split; [|split]; now apply made_dressed. }
    destruct (merge_dress wild fuel p q k0 Ep Eq Ek) as (E & F).
    rewrite E, plain_dresult, !plain_dress, plain_dcache. split; auto.
    intros r k' H. destruct (merge thehash fuel wild p q k0) as [(r0, k1)| |]; try discriminate.
    cbn in H. injection H as <- <-. destruct (F r0 k1 eq_refl) as (F1 & F2). split; [now apply dressed_made|].
    intros l x y m El I. destruct k1 as [l1|]; [|discriminate]. injection El as <-.
    apply in_map_iff in I as (((x0, y0), m0) & [= <- <- <-] & I).
    destruct (F2 l1 x0 y0 m0 eq_refl I) as (G1 & G2 & G3). split; [|split]; now apply dressed_made.
  Qed.
End Dress.

(** ** Equal values write the same *)
Section Laws.
  Variable ptr_eq : hctx -> hctx -> bool.
  Hypothesis ptr_ok : one_value ptr_eq.

  Lemma arc_hash a b : arc_eqb ptr_eq a b = true -> hash_ctx a = hash_ctx b.
  Proof.
    intros H. apply orb_true_iff in H as [H|H].
    - now apply ptr_ok in H as <-.
    - unfold hash_ctx. do 2 f_equal. destruct a, b; cbn in H; try discriminate;
      apply andb_true_iff in H as (H & _); apply andb_true_iff in H as (H & _); now apply Z.eqb_eq in H.
  Qed.

  Lemma sem_hash a b : sem_eqb a b = true -> hash_sem a = hash_sem b.
  Proof. intros H. now apply sem_eqb_eq in H as <-. Qed.

  Lemma executor_eq a b : executor_eqb a b = true -> a = b.
  Proof.
    destruct a as [h l], b as [h' l']. unfold executor_eqb. cbn. intros H.
    apply andb_true_iff in H as (H1 & H2). apply Z.eqb_eq in H1 as ->. now apply actions_eqb_eq in H2 as ->.
  Qed.

  Lemma type_eq a b : config_type_eqb a b = true -> a = b.
  Proof.
    destruct a as [|[e|] p], b as [|[e'|] p']; cbn; try discriminate; auto; intros H.
    - apply andb_true_iff in H as (H1 & H2). apply executor_eq in H1 as ->. now apply eqb_prop in H2 as ->.
    - now apply eqb_prop in H as ->.
  Qed.

  Lemma config_hash a b : hconfig_eqb ptr_eq a b = true -> hash_config a = hash_config b.
  Proof.
    unfold hconfig_eqb. intros H.
    apply andb_true_iff in H as (H & _). apply andb_true_iff in H as (H & H5).
    apply andb_true_iff in H as (H & H4). apply andb_true_iff in H as (H & H3).
    apply andb_true_iff in H as (H1 & H2). apply Z.eqb_eq in H1, H2.
    unfold hash_config. rewrite H1, H2, (sem_hash _ _ H5), (type_eq _ _ H4). f_equal. f_equal.
    destruct (hc_context a) as [x|], (hc_context b) as [y|]; try discriminate; auto. now apply arc_hash.
  Qed.

  Lemma configs_hash x : forall y, hconfigs_eqb ptr_eq x y = true ->
    length x = length y /\ flat_map hash_config x = flat_map hash_config y.
  Proof.
    induction x as [|u x IH]; intros [|v y] H; cbn in H; try discriminate; auto.
    apply andb_true_iff in H as (H1 & H2). apply config_hash in H1. destruct (IH y H2) as (L & E).
    cbn [length flat_map]. now rewrite L, E, H1.
  Qed.

  Lemma set_hash a b : hset_eqb ptr_eq a b = true -> hash_set a = hash_set b.
  Proof.
    unfold hset_eqb. intros H. do 5 apply andb_true_iff in H as (H & _).
    apply configs_hash in H as (L & E). unfold hash_set. now rewrite L, E.
  Qed.

  Lemma key_hash a b : hkey_eqb ptr_eq a b = true -> hash_key a = hash_key b.
  Proof.
    destruct a, b; cbn; try discriminate; intros H.
    - now apply config_hash.
    - do 3 apply andb_true_iff in H as (H & _). now apply Z.eqb_eq in H as ->.
  Qed.
End Laws.

Lemma executor_made actions_hash e : made_executor actions_hash e -> ex_hash e = actions_hash [].
Proof. induction 1; auto. Qed.

Lemma executor_equal actions_hash a b : made_executor actions_hash a -> made_executor actions_hash b ->
  (executor_eqb a b = true <-> ex_actions a = ex_actions b).
Proof.
  intros Ma Mb. apply executor_made in Ma, Mb. unfold executor_eqb. rewrite Ma, Mb, Z.eqb_refl. cbn. split.
  - apply actions_eqb_eq.
  - intros ->. apply actions_eqb_refl.
Qed.

Lemma config_equal finish ptr_eq actions_hash a b : one_value ptr_eq ->
  made_config finish ptr_eq actions_hash a -> made_config finish ptr_eq actions_hash b ->
  (hconfig_eqb ptr_eq a b = true <->
     hc_state a = hc_state b /\ hc_alt a = hc_alt b /\
     option_map plain (hc_context a) = option_map plain (hc_context b) /\
     type_says (hc_type a) = type_says (hc_type b) /\
     hc_semantic a = hc_semantic b /\ hc_suppressed a = hc_suppressed b).
Proof.
  intros P (Ca & Xa) (Cb & Xb). unfold hconfig_eqb. rewrite !andb_true_iff, !Z.eqb_eq, sem_eqb_eq, eqb_true_iff.
  assert (C : opt_hctx_eqb ptr_eq (hc_context a) (hc_context b) = true <->
    option_map plain (hc_context a) = option_map plain (hc_context b)).
  { destruct (hc_context a) as [x|], (hc_context b) as [y|]; cbn; try (split; [discriminate|discriminate]);
      [|split; auto].
    destruct (made_equal finish ptr_eq P x y (Ca x eq_refl) (Cb y eq_refl)) as (E & _). rewrite E.
    split; [now intros ->|now intros [= ->]]. }
  assert (T : config_type_eqb (hc_type a) (hc_type b) = true <-> type_says (hc_type a) = type_says (hc_type b)).
  { destruct (hc_type a) as [|[e|] p], (hc_type b) as [|[e'|] p']; cbn; try (split; discriminate);
      try (split; auto; fail).
    - rewrite andb_true_iff, eqb_true_iff.
      rewrite (executor_equal actions_hash e e' (Xa e p eq_refl) (Xb e' p' eq_refl)).
      split; [intros (-> & ->); auto|intros [= -> ->]; auto].
    - rewrite eqb_true_iff. split; [now intros ->|now intros [= ->]]. }
  rewrite C, T. intuition.
Qed.
