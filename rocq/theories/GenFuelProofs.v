(** More fuel changes no result of a parse. *)
From Coq Require Import ZArith List Bool Lia.
From Verif Require Import Outcome IntervalSetModel PredContextModel SemContextModel ConfigSetModel DfaModel AtnModel Ll1Model ParserModel ParserRunProofs PredictModel PredictTotalBaseProofs PredictTotalFuelProofs GenModel.
Import ListNotations.
Local Open Scope Z_scope.
Local Open Scope outcome_scope.

(** ** Lookahead sets *)
Section Look.
  Variable a : atn.
  Lemma each_le {A} (f f' : A -> work -> outcome work) : (forall x w, le_out (f x w) (f' x w)) -> forall l w, le_out (each f l w) (each f' l w).
  Proof. intros H. induction l as [|x l IH]; intros w; cbn [each]; [apply le_refl|]. apply le_bind; [apply H | intros; apply IH]. Qed.
  Lemma look_work_le stop : forall n s ctx see eof w, le_out (look_work n a stop s ctx see eof w) (look_work (Datatypes.S n) a stop s ctx see eof w).
  Proof.
    induction n as [|n IH]; intros s ctx see eof w; [left; reflexivity|]. remember (Datatypes.S n) as n1. rewrite Heqn1 at 1. cbn [look_work]. subst n1.
    destruct (existsb _ _); [apply le_refl|]. apply le_bind; [apply le_refl|]. intros first _. apply le_bind; [apply le_refl|]. intros second _.
    destruct second; [apply le_refl| |].
    - unfold look_unwind. apply le_bind; [|intros; apply le_refl]. apply each_le. intros i w1. mono. apply IH.
    - apply each_le. intros t w1. unfold look_trans. mono; apply IH.
  Qed.
  Lemma next_in_le n s ctx : le_out (next_tokens_in_ctx n a s ctx) (next_tokens_in_ctx (Datatypes.S n) a s ctx).
  Proof. unfold next_tokens_in_ctx, look. apply le_bind; [apply look_work_le | intros; apply le_refl]. Qed.
  Lemma next_le n s : le_out (next_tokens n a s) (next_tokens (Datatypes.S n) a s).
  Proof. unfold next_tokens. apply le_bind; [apply next_in_le | intros; apply le_refl]. Qed.
  Lemma next_stack_le n s st : le_out (next_tokens_of_stack n a s st) (next_tokens_of_stack (Datatypes.S n) a s st).
  Proof. unfold next_tokens_of_stack. apply le_bind; [apply le_refl|]. intros ? _. apply next_in_le. Qed.
  Lemma expected_loop_le n : forall st following expected, le_out (expected_loop n a following expected st) (expected_loop (Datatypes.S n) a following expected st).
  Proof.
    induction st as [|x st IH]; intros following expected; cbn [expected_loop]; [apply le_refl|]. destruct (negb _); [apply le_refl|].
    do 4 (apply le_bind; [apply le_refl|]; intros ? _). apply le_bind; [apply next_le|]. intros ? _. apply le_bind; [apply le_refl|]. intros ? _. apply IH.
  Qed.
  Lemma expected_le n i st : le_out (Ll1Model.get_expected_tokens n a i st) (Ll1Model.get_expected_tokens (Datatypes.S n) a i st).
  Proof.
    unfold Ll1Model.get_expected_tokens. apply le_bind; [apply le_refl|]. intros ? _. apply le_bind; [apply next_le|]. intros ? _.
    destruct (negb _); [apply le_refl|]. apply le_bind; [apply le_refl|]. intros ? _. apply le_bind; [apply expected_loop_le|]. intros [] _. apply le_refl.
  Qed.
End Look.

(** ** Error strategies, matching, and histories of calls *)
Section Base.
  Context {S : Type}.
  Variable ts : stream_ops S.
  Variable a : atn.
  Variable names : naming.
  Ltac go := repeat first [apply expected_le | apply next_le | apply next_stack_le | apply expected_loop_le | apply le_refl
    | match goal with
      | |- le_out (match ?x with _ => _ end) (match ?x with _ => _ end) => destruct x
      | |- le_out (obindo _ _) (obindo _ _) => apply le_bind; [|intros ? _]
      end].

  Section At.
    Variable n : nat.
    Notation n1 := (Datatypes.S n).
    Lemma p_expected_le p : le_out (ParserModel.get_expected_tokens a n p) (ParserModel.get_expected_tokens (S := S) a n1 p).
    Proof. unfold ParserModel.get_expected_tokens, expected_cut. go. Qed.
    Lemma message_le p e : le_out (message_of ts a names n p e) (message_of ts a names n1 p e).
    Proof. unfold message_of. go. Qed.
    Lemma token_le message d p : le_out (report_token ts a n message d p) (report_token ts a n1 message d p).
    Proof. unfold report_token. go. apply p_expected_le. Qed.
    Lemma insertion_le d p : le_out (single_token_insertion ts a names n d p) (single_token_insertion ts a names n1 d p).
    Proof. unfold single_token_insertion. go. apply token_le. Qed.
    Lemma deletion_le d p : le_out (single_token_deletion ts a names n d p) (single_token_deletion ts a names n1 d p).
    Proof. unfold single_token_deletion. go; [apply p_expected_le | apply token_le]. Qed.
    Lemma missing_le p : le_out (get_missing_symbol ts a names n p) (get_missing_symbol ts a names n1 p).
    Proof. unfold get_missing_symbol. go. apply p_expected_le. Qed.
    Lemma inline_le d p : le_out (d_recover_inline ts a names n d p) (d_recover_inline ts a names n1 d p).
    Proof. unfold d_recover_inline. go; [apply deletion_le | apply insertion_le | apply missing_le]. Qed.
    Lemma recovery_loop_le h : forall k ctx set, le_out (recovery_loop a n k h ctx set) (recovery_loop a n1 k h ctx set).
    Proof. induction k as [|k IH]; intros ctx set; cbn [recovery_loop]; go. apply IH. Qed.
    Lemma recovery_set_le p : le_out (get_error_recovery_set a n p) (get_error_recovery_set (S := S) a n1 p).
    Proof. unfold get_error_recovery_set. go. apply recovery_loop_le. Qed.
    Lemma consume_loop_le rec set : forall k p ty, le_out (consume_loop ts k rec set p ty) (consume_loop ts (Datatypes.S k) rec set p ty).
    Proof.
      induction k as [|k IH]; intros p ty.
      - cbn [consume_loop]. destruct (_ && _); [left; reflexivity | apply le_refl].
      - remember (Datatypes.S k) as k1. rewrite Heqk1 at 1. cbn [consume_loop]. subst k1. go. apply IH.
    Qed.
    Lemma until_le d p set : le_out (consume_until ts n d p set) (consume_until ts n1 d p set).
    Proof. unfold consume_until. go. apply consume_loop_le. Qed.
    Lemma d_recover_le d p : le_out (d_recover ts a n d p) (d_recover ts a n1 d p).
    Proof. unfold d_recover. go; [apply recovery_set_le | apply until_le]. Qed.
    Lemma d_sync_le d p : le_out (d_sync ts a names n d p) (d_sync ts a names n1 d p).
    Proof. unfold d_sync. go; [apply deletion_le | apply token_le | apply p_expected_le | apply recovery_set_le | apply until_le]. Qed.
    Lemma d_report_le d p e : le_out (d_report_error ts a names n d p e) (d_report_error ts a names n1 d p e).
    Proof. unfold d_report_error. go. apply message_le. Qed.
    Lemma inline_s_le g p : le_out (recover_inline ts a names n g p) (recover_inline ts a names n1 g p).
    Proof. unfold recover_inline. go. apply inline_le. Qed.
    Lemma recover_le g p e : le_out (recover ts a n g p e) (recover ts a n1 g p e).
    Proof. unfold recover. go. apply d_recover_le. Qed.
    Lemma sync_le g p : le_out (sync ts a names n g p) (sync ts a names n1 g p).
    Proof. unfold sync. go. apply d_sync_le. Qed.
    Lemma match_token_le g p x : le_out (match_token ts a names n g p x) (match_token ts a names n1 g p x).
    Proof. unfold match_token. go. apply inline_s_le. Qed.
    Lemma match_wildcard_le g p : le_out (match_wildcard ts a names n g p) (match_wildcard ts a names n1 g p).
    Proof. unfold match_wildcard. go. apply inline_s_le. Qed.
    Lemma match_set_le f g p : le_out (match_set ts a names n f g p) (match_set ts a names n1 f g p).
    Proof. unfold match_set. go. apply inline_s_le. Qed.
    Lemma catch_le g p r : le_out (catch ts a names n g p r) (catch ts a names n1 g p r).
    Proof. unfold catch, report_error. go; first [apply d_report_le | apply recover_le]. Qed.
    Definition call_le (c : call) : Prop := forall g p f, le_out (run_call ts a names n c g p f) (run_call ts a names n1 c g p f).
    Lemma calls_le_all : forall cs, Forall call_le cs -> forall g p f, le_out (run_calls ts a names n cs g p f) (run_calls ts a names n1 cs g p f).
    Proof.
      induction 1 as [|c cs H _ IH]; intros g p f; cbn [run_calls]; [apply le_refl|]. apply le_bind; [apply H|]. intros [[[g1 p1] f1] r] _. destruct r; [apply le_refl | apply IH].
    Qed.
    Lemma call_le_all : forall c, call_le c.
    Proof.
      induction c as [c N1 N2|rule s pl body IH|rule s k pl body IH] using call_ind'; intros g p f.
      - destruct c; cbn [run_call]; unfold no_result, no_tok; go; first [apply sync_le | apply match_token_le | apply match_wildcard_le | apply match_set_le | exfalso; first [eapply N1; reflexivity | eapply N2; reflexivity]].
      - change (le_out (let parent := p_ctx p in let st := p_state p in let '(p, i) := alloc p (new_parser_ctx parent st rule 0 pl) in
          let! p := enter_rule ts p i s in let! (g, p, _, r) := run_calls ts a names n body g p (Frame i parent st s rule) in
          let! (g, p, r) := catch ts a names n g p r in match r with Some e => Val (g, p, f, Some e) | None => let! p := exit_rule ts p in Val (g, p, f, None) end)
          (let parent := p_ctx p in let st := p_state p in let '(p, i) := alloc p (new_parser_ctx parent st rule 0 pl) in
          let! p := enter_rule ts p i s in let! (g, p, _, r) := run_calls ts a names n1 body g p (Frame i parent st s rule) in
          let! (g, p, r) := catch ts a names n1 g p r in match r with Some e => Val (g, p, f, Some e) | None => let! p := exit_rule ts p in Val (g, p, f, None) end)).
        cbv zeta. destruct (alloc _ _) as [p0 i]. apply le_bind; [apply le_refl|]. intros p1 _. apply le_bind; [apply calls_le_all, IH|].
        intros [[[g2 p2] f2] r2] _. apply le_bind; [apply catch_le|]. intros; apply le_refl.
      - change (le_out (let parent := p_ctx p in let st := p_state p in let '(p, i) := alloc p (new_parser_ctx parent st rule 0 pl) in
          let! p := enter_recursion_rule ts p i s k in let! (g, p, _, r) := run_calls ts a names n body g p (Frame i parent st s rule) in
          let! (g, p, r) := catch ts a names n g p r in match r with Some e => Val (g, p, f, Some e) | None => let! p := unroll_recursion_context ts p parent in Val (g, p, f, None) end)
          (let parent := p_ctx p in let st := p_state p in let '(p, i) := alloc p (new_parser_ctx parent st rule 0 pl) in
          let! p := enter_recursion_rule ts p i s k in let! (g, p, _, r) := run_calls ts a names n1 body g p (Frame i parent st s rule) in
          let! (g, p, r) := catch ts a names n1 g p r in match r with Some e => Val (g, p, f, Some e) | None => let! p := unroll_recursion_context ts p parent in Val (g, p, f, None) end)).
        cbv zeta. destruct (alloc _ _) as [p0 i]. apply le_bind; [apply le_refl|]. intros p1 _. apply le_bind; [apply calls_le_all, IH|].
        intros [[[g2 p2] f2] r2] _. apply le_bind; [apply catch_le|]. intros; apply le_refl.
    Qed.
    Lemma calls_le cs g p f : le_out (run_calls ts a names n cs g p f) (run_calls ts a names n1 cs g p f).
    Proof. apply calls_le_all, Forall_forall. intros c _. apply call_le_all. Qed.
  End At.
End Base.

(** ** Generated parsers *)
Section Gen.
  Context {S : Type}.
  Variable ts : seek_ops S.
  Variable a : atn.
  Variable names : naming.
  Variable sempred : S -> option nat -> Z -> Z -> bool.
  Variable order : list nat -> list sem -> list sem.
  Variable alt_order : list (list Z) -> list (list Z).
  Variable hash : pctx -> Z.
  Variable dhash : list pconfig -> Z.
  Variable share : pctx -> pctx.
  Variable clock : S -> nat.
  Variable mode : pmode.
  Variable plan : Z -> Z -> list call.
  Variable switch : Z -> option (Z -> option Z).
  Variable plain : Z -> bool.
  Notation choose := (choose ts a sempred order alt_order hash dhash share clock mode switch).
  Notation walk := (walk ts a names sempred order alt_order hash dhash share clock mode plan switch plain).
  Lemma choose_le n i s p ds : le_out (choose n i s p ds) (choose (Datatypes.S n) i s p ds).
  Proof.
    unfold GenModel.choose. destruct (st_trans s) as [|t [|t' l]]; try apply le_refl; (destruct (switch i); [apply le_refl|]); destruct (st_type s); try apply le_refl;
      do 3 (apply le_bind; [apply le_refl|]; intros ? _); (apply le_bind; [apply predict_le|]); intros [m r] _; apply le_refl.
  Qed.
  Lemma label_le n t g p : le_out (match_label ts a names n t g p) (match_label ts a names (Datatypes.S n) t g p).
  Proof.
    unfold match_label. destruct t; try apply le_refl; try apply match_set_le.
    - apply le_bind; [apply match_token_le | intros; apply le_refl].
    - apply le_bind; [apply match_wildcard_le | intros; apply le_refl].
  Qed.
  Lemma rule_le n body body' rule start g p ds : (forall g p ds f, le_out (body g p ds f) (body' g p ds f)) ->
    le_out (rule_function ts a names plain n body rule start g p ds) (rule_function ts a names plain (Datatypes.S n) body' rule start g p ds).
  Proof.
    intros H. unfold rule_function. destruct (alloc _ _) as [p0 c]. apply le_bind; [apply le_refl|]. intros p1 _. apply le_bind; [apply H|]. intros [[[[g2 p2] ds2] f2] r2] _.
    destruct r2; try apply le_refl; (apply le_bind; [apply catch_le | intros; apply le_refl]).
  Qed.
  Lemma walk_le : forall n from i g p ds f, le_out (walk n from i g p ds f) (walk (Datatypes.S n) from i g p ds f).
  Proof.
    induction n as [|n IH]; intros from i g p ds f; [left; reflexivity|]. remember (Datatypes.S n) as k. rewrite Heqk at 1. cbn [GenModel.walk]. subst k.
    apply le_bind; [apply calls_le|]. intros [[[g1 p1] f1] r1] _. destruct r1 as [e|]; [apply le_refl|]. apply le_bind; [apply le_refl|]. intros s _.
    assert (B : le_out (let! (p, ds, c) := choose n i s p1 ds in
      match c with
      | Stuck e => Val (g1, p, ds, f1, Raised e)
      | DfaFull => Val (g1, p, ds, f1, Full)
      | Go t =>
          match t with
          | RuleTr start follow rule _ =>
              let! (g, p, ds, r) := rule_function ts a names plain n (walk n (-1) start) rule start g1 (set_state p i) ds in
              match r with Ended => walk n i follow g p ds f1 | r => Val (g, p, ds, f1, r) end
          | Atom target _ | Wildcard target | Range target _ _ | SetTr target _ | NotSet target _ =>
              let! (g, p, r) := match_label ts a names n t g1 (set_state p i) in
              match r with None => walk n i target g p ds f1 | Some e => Val (g, p, ds, f1, Raised e) end
          | Epsilon target _ | Action target _ _ _ _ => walk n i target g1 p ds f1
          | PredicateTr _ _ _ _ | PrecedenceTr _ _ => Panics
          end
      end)
      (let! (p, ds, c) := choose (Datatypes.S n) i s p1 ds in
      match c with
      | Stuck e => Val (g1, p, ds, f1, Raised e)
      | DfaFull => Val (g1, p, ds, f1, Full)
      | Go t =>
          match t with
          | RuleTr start follow rule _ =>
              let! (g, p, ds, r) := rule_function ts a names plain (Datatypes.S n) (walk (Datatypes.S n) (-1) start) rule start g1 (set_state p i) ds in
              match r with Ended => walk (Datatypes.S n) i follow g p ds f1 | r => Val (g, p, ds, f1, r) end
          | Atom target _ | Wildcard target | Range target _ _ | SetTr target _ | NotSet target _ =>
              let! (g, p, r) := match_label ts a names (Datatypes.S n) t g1 (set_state p i) in
              match r with None => walk (Datatypes.S n) i target g p ds f1 | Some e => Val (g, p, ds, f1, Raised e) end
          | Epsilon target _ | Action target _ _ _ _ => walk (Datatypes.S n) i target g1 p ds f1
          | PredicateTr _ _ _ _ | PrecedenceTr _ _ => Panics
          end
      end)).
    { apply le_bind; [apply choose_le|]. intros [[p2 ds2] c] _. destruct c as [t|e|]; try apply le_refl. destruct t; try apply IH; try apply le_refl;
        try (apply le_bind; [apply label_le|]; intros [[g3 p3] r3] _; destruct r3; [apply le_refl | apply IH]).
      apply le_bind; [apply rule_le; intros; apply IH|]. intros [[[g3 p3] ds3] r3] _. destruct r3; [apply IH | apply le_refl..]. }
    destruct (st_type s); try exact B. apply le_refl.
  Qed.
  Notation parse := (parse ts a names sempred order alt_order hash dhash share clock mode plan switch plain).
  Lemma parse_le n rule start g p ds : le_out (parse n rule start g p ds) (parse (Datatypes.S n) rule start g p ds).
  Proof. apply rule_le. intros. apply walk_le. Qed.
  Lemma parse_more n m rule start g p ds : (n <= m)%nat -> parse n rule start g p ds <> NoFuel -> parse m rule start g p ds = parse n rule start g p ds.
  Proof.
    intros L N. pose proof (mono_le (fun n => parse n rule start g p ds) (fun n => parse_le n rule start g p ds) n m L) as [Q|Q]; [contradiction | exact Q].
  Qed.
End Gen.
