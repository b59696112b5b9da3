(** How to show that a parse never ends: if its body can be followed from state to state
    for ever, no fuel is enough. *)
From Coq Require Import ZArith List Bool Lia.
From Verif Require Import Outcome IntervalSetModel PredContextModel SemContextModel ConfigSetModel DfaModel AtnModel Ll1Model ParserModel ParserRunProofs PredictModel PredictTotalBaseProofs GenModel GenFuelProofs.
Import ListNotations.
Local Open Scope Z_scope.
Local Open Scope outcome_scope.

Section Hang.
  Context {S : Type}.
  Variable ts : seek_ops S.
  Variable a : atn.
  Variable names : naming.
  Variable sempred : S -> option nat -> Z -> Z -> bool.
  Variable order : list nat -> list sem -> list sem.
  Variable alt_order : list (list Z) -> list (list Z).
  Variable hash : pctx -> Z.
  Variable dhash : list pconfig -> Z.
  Variable share : pctx -> pctx.
  Variable clock : S -> nat.
  Variable mode : pmode.
  Variable plan : Z -> Z -> list call.
  Variable switch : Z -> option (Z -> option Z).
  Variable plain : Z -> bool.
  Notation choose := (choose ts a sempred order alt_order hash dhash share clock mode switch).
  Notation rule_function := (rule_function ts a names plain).
  Notation walk := (walk ts a names sempred order alt_order hash dhash share clock mode plan switch plain).
  Notation parse := (parse ts a names sempred order alt_order hash dhash share clock mode plan switch plain).

  (** where a body is: the last two states, and the arguments of [walk] *)
  Definition point : Type := (Z * Z * strategy * parser S * list pdfa * frame)%type.
  Definition result : Type := (strategy * parser S * list pdfa * frame * ending)%type.
  Definition walk_from (n : nat) (x : point) : outcome result := let '(from, i, g, p, ds, f) := x in walk n from i g p ds f.
  (** one state further *)
  Definition next (n : nat) (x : point) : outcome (point + result) :=
    let '(from, i, g, p, ds, f) := x in
    let! (g, p, f, r) := run_calls (k_base ts) a names n (plan from i) g p f in
    match r with
    | Some e => Val (inr (g, p, ds, f, Raised e))
    | None =>
        let! s := get_state a i in
        match st_type s with
        | RuleStopState => Val (inr (g, p, ds, f, Ended))
        | _ =>
            let! (p, ds, c) := choose n i s p ds in
            match c with
            | Stuck e => Val (inr (g, p, ds, f, Raised e))
            | DfaFull => Val (inr (g, p, ds, f, Full))
            | Go t =>
                match t with
                | RuleTr start follow rule _ =>
                    let! (g, p, ds, r) := rule_function n (walk n (-1) start) rule start g (set_state p i) ds in
                    match r with
                    | Ended => Val (inl (i, follow, g, p, ds, f))
                    | r => Val (inr (g, p, ds, f, r))
                    end
                | Atom target _ | Wildcard target | Range target _ _ | SetTr target _ | NotSet target _ =>
                    let! (g, p, r) := match_label ts a names n t g (set_state p i) in
                    match r with
                    | None => Val (inl (i, target, g, p, ds, f))
                    | Some e => Val (inr (g, p, ds, f, Raised e))
                    end
                | Epsilon target _ | Action target _ _ _ _ => Val (inl (i, target, g, p, ds, f))
                | PredicateTr _ _ _ _ | PrecedenceTr _ _ => Panics
                end
            end
        end
    end.
  Lemma walk_next n x : walk_from (Datatypes.S n) x = let! y := next n x in match y with inl x => walk_from n x | inr r => Val r end.
  Proof.
    destruct x as [[[[[from i] g] p] ds] f]. unfold walk_from, next. cbn [GenModel.walk].
    destruct (run_calls _ a names n (plan from i) g p f) as [[[[g1 p1] f1] [er|]]| |]; try reflexivity. cbn [obindo].
    destruct (get_state a i) as [s| |]; try reflexivity. cbn [obindo].
    destruct (st_type s); try reflexivity; (destruct (choose n i s p1 ds) as [[[p2 ds2] [t|er|]]| |]; try reflexivity; cbn [obindo]; destruct t; try reflexivity; cbn [obindo];
      [..| destruct (match_label _ _ _ _ _ _ _) as [[[g3 p3] [er|]]| |]; reflexivity]).
    all: try (destruct (match_label _ _ _ _ _ _ _) as [[[g3 p3] [er|]]| |]; reflexivity).
    all: destruct (GenModel.rule_function _ _ _ _ _ _ _ _ _ _ _) as [[[[g3 p3] ds3] [|er|]]| |]; reflexivity.
  Qed.
  Lemma next_le n x : le_out (next n x) (next (Datatypes.S n) x).
  Proof.
    destruct x as [[[[[from i] g] p] ds] f]. unfold next.
    apply le_bind; [apply calls_le|]. intros [[[g1 p1] f1] r1] _. destruct r1 as [e|]; [apply le_refl|]. apply le_bind; [apply le_refl|]. intros s _.
    destruct (st_type s); try apply le_refl;
      (apply le_bind; [apply choose_le|]; intros [[p2 ds2] c] _; destruct c as [t|e|]; try apply le_refl; destruct t; try apply le_refl;
        try (apply le_bind; [apply label_le|]; intros; apply le_refl); apply le_bind; [apply rule_le; intros; apply walk_le | intros; apply le_refl]).
  Qed.
  (** the kinds of steps *)
  Lemma step_epsilon n from i g p ds f g1 p1 f1 s p2 ds2 t e : run_calls (k_base ts) a names n (plan from i) g p f = Val (g1, p1, f1, None) ->
    get_state a i = Val s -> st_type s <> RuleStopState -> choose n i s p1 ds = Val (p2, ds2, Go (Epsilon t e)) ->
    next n (from, i, g, p, ds, f) = Val (inl (i, t, g1, p2, ds2, f1)).
  Proof. intros R G N C. unfold next. rewrite R. cbn [obindo]. rewrite G. cbn [obindo]. destruct (st_type s); try congruence; rewrite C; reflexivity. Qed.
  Lemma step_rule n from i g p ds f g1 p1 f1 s p2 ds2 start follow rule prec g3 p3 ds3 : run_calls (k_base ts) a names n (plan from i) g p f = Val (g1, p1, f1, None) ->
    get_state a i = Val s -> st_type s <> RuleStopState -> choose n i s p1 ds = Val (p2, ds2, Go (RuleTr start follow rule prec)) ->
    rule_function n (walk n (-1) start) rule start g1 (set_state p2 i) ds2 = Val (g3, p3, ds3, Ended) ->
    next n (from, i, g, p, ds, f) = Val (inl (i, follow, g3, p3, ds3, f1)).
  Proof. intros R G N C F. unfold next. rewrite R. cbn [obindo]. rewrite G. cbn [obindo]. destruct (st_type s); try congruence; rewrite C; cbn [obindo]; rewrite F; reflexivity. Qed.
  Lemma step_token n from i g p ds f g1 p1 f1 s p2 ds2 target label g3 p3 : run_calls (k_base ts) a names n (plan from i) g p f = Val (g1, p1, f1, None) ->
    get_state a i = Val s -> st_type s <> RuleStopState -> choose n i s p1 ds = Val (p2, ds2, Go (Atom target label)) ->
    match_label ts a names n (Atom target label) g1 (set_state p2 i) = Val (g3, p3, None) ->
    next n (from, i, g, p, ds, f) = Val (inl (i, target, g3, p3, ds2, f1)).
  Proof. intros R G N C F. unfold next. rewrite R. cbn [obindo]. rewrite G. cbn [obindo]. destruct (st_type s); try congruence; rewrite C; cbn [obindo]; rewrite F; reflexivity. Qed.
  Lemma step_stop n from i g p ds f g1 p1 f1 s : run_calls (k_base ts) a names n (plan from i) g p f = Val (g1, p1, f1, None) ->
    get_state a i = Val s -> st_type s = RuleStopState -> next n (from, i, g, p, ds, f) = Val (inr (g1, p1, ds, f1, Ended)).
  Proof. intros R G N. unfold next. rewrite R. cbn [obindo]. rewrite G. cbn [obindo]. rewrite N. reflexivity. Qed.
  (** a set of points that is never left *)
  Lemma for_ever (inv : point -> Prop) : (forall x, inv x -> exists n y, next n x = Val (inl y) /\ inv y) -> forall n x, inv x -> walk_from n x = NoFuel.
  Proof.
    intros H. induction n as [|n IH]; intros x I; [destruct x as [[[[[from i] g] p] ds] f]; reflexivity|].
    rewrite walk_next. destruct (H x I) as (m & y & E & Iy).
    destruct (mono_le (fun n => next n x) (fun n => next_le n x) n (Nat.max n m) ltac:(lia)) as [Q|Q]; [rewrite Q; reflexivity|].
    destruct (mono_le (fun n => next n x) (fun n => next_le n x) m (Nat.max n m) ltac:(lia)) as [Q'|Q']; [congruence|].
    rewrite <- Q, Q', E. cbn [obindo]. apply IH, Iy.
  Qed.
  (** a point from which a given number of steps leads to another *)
  Fixpoint ahead_by (n k : nat) (x : point) : outcome (point + result) :=
    match k with
    | O => Val (inl x)
    | Datatypes.S k => let! y := next n x in match y with inl y => ahead_by n k y | inr r => Val (inr r) end
    end.
  Lemma later n : forall k x y, ahead_by n k x = Val (inl y) -> (forall m, walk_from m y = NoFuel) -> forall m, walk_from m x = NoFuel.
  Proof.
    induction k as [|k IH]; intros x y E H m; [injection E as <-; apply H|]. cbn in E.
    destruct (next n x) as [[z|r]| |] eqn:Q; try discriminate E. cbn [obindo] in E.
    destruct m as [|m]; [destruct x as [[[[[from i] g] p] ds] f]; reflexivity|]. rewrite walk_next.
    destruct (mono_le (fun n => next n x) (fun n => next_le n x) m (Nat.max n m) ltac:(lia)) as [R|R]; [rewrite R; reflexivity|].
    destruct (mono_le (fun n => next n x) (fun n => next_le n x) n (Nat.max n m) ltac:(lia)) as [R'|R']; [congruence|].
    rewrite <- R, R', Q. cbn [obindo]. exact (IH z y E H m).
  Qed.
  Lemma walk_ahead n : forall k x m, (k <= m)%nat -> (n <= m - k)%nat -> forall y, ahead_by n k x = Val y -> walk_from m x = match y with inl y => walk_from (m - k) y | inr r => Val r end.
  Proof.
    induction k as [|k IH]; intros x m Hk Hn y E; [injection E as <-; replace (m - 0)%nat with m by lia; reflexivity|].
    destruct m as [|m]; [lia|]. cbn in E. rewrite walk_next.
    destruct (next n x) as [[z|r]| |] eqn:Q; try discriminate E; cbn [obindo] in E;
      (destruct (mono_le (fun n => next n x) (fun n => next_le n x) n m ltac:(lia)) as [R|R]; [congruence|]); cbv beta in R; rewrite R, Q; cbn [obindo].
    - apply (IH z m ltac:(lia) ltac:(lia) y E).
    - injection E as <-. reflexivity.
  Qed.
  (** a set of points that is always returned to *)
  Lemma round_and_round (inv : point -> Prop) k : (forall x, inv x -> exists n y, ahead_by n (Datatypes.S k) x = Val (inl y) /\ inv y) -> forall n x, inv x -> walk_from n x = NoFuel.
  Proof.
    intros H n x I.
    apply (for_ever (fun x => exists n j y, ahead_by n j x = Val (inl y) /\ inv y)); [|exists O, O, x; split; [reflexivity | exact I]].
    clear n x I. intros x (n & j & y & E & I). destruct j as [|j].
    - injection E as ->. destruct (H y I) as (m & z & Q & Iz). cbn in Q. destruct (next m y) as [[w|r]| |] eqn:W; try discriminate Q.
      exists m, w. split; [exact W|]. exists m, k, z. split; [exact Q | exact Iz].
    - cbn in E. destruct (next n x) as [[w|r]| |] eqn:W; try discriminate E. exists n, w. split; [exact W|]. exists n, j, y. split; [exact E | exact I].
  Qed.
End Hang.
