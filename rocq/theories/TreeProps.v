(** Properties of parse trees: C49, C50, C51, C68, C69, C70, C75, C76. *)
From Coq Require Import ZArith List Bool Lia.
From Verif Require Import Outcome TreeModel TreeSpec TreeProofs.
Import ListNotations.
Local Open Scope Z_scope.

(** A small tree: (row (field a) , <error>) with rule 1 named "row" and rule 0 "field". *)
Definition field_node := Rule 2 false 7 0 0 [Leaf 3 false 5 [97; 9] 0].
Definition row_node := Rule 1 false 8 1 0 [field_node; Leaf 4 false 6 [44] 1; Leaf 5 true 6 [63] 2].
Definition row_names : list text := [[102; 105]; [114]].

(** C49: what a walk delivers to a listener, whatever the listener does, is one fixed sequence of
    events, in document order; for every tree without plain contexts that is: one enter_every_rule and
    enter before, and one exit and exit_every_rule after everything below, for every rule node, and one
    visit for every leaf, left to right. Plain contexts (see the refutation) get no events of their own. *)
Theorem C49_walk_partial : forall t, proper_tree t ->
  exists evs, document_order t evs /\
    forall L (K : listener L), exists n, forall fuel, (n <= fuel)%nat -> forall l,
      walk_inner K fuel l t = Val (fold_left (deliver K) evs l).
Proof.
  intros t Hp. exists (doc t). split; [now apply doc_order|]. intros L K. apply walk_doc.
Qed.
Print Assumptions C49_walk_partial.

(** Document order leaves no freedom: it determines the sequence of events. *)
Theorem C49_order_unique : forall t evs1 evs2, proper_tree t ->
  document_order t evs1 -> document_order t evs2 -> evs1 = evs2.
Proof.
  intros t e1 e2 Hp H1 H2. now rewrite (document_order_unique t e1 H1 Hp), (document_order_unique t e2 H2 Hp).
Qed.
Print Assumptions C49_order_unique.

Example C49_nonvacuous : proper_tree row_node /\
  walk_inner (Listener (fun t l => l ++ [(0, n_id t)]) (fun t l => l ++ [(1, n_id t)]) (fun t l => l ++ [(2, n_id t)])
                (fun t l => l ++ [(5, n_id t)]) (fun t l => l ++ [(3, n_id t)]) (fun t l => l ++ [(4, n_id t)])) 5 [] row_node
  = Val [(2, 1%nat); (3, 1%nat); (2, 2%nat); (3, 2%nat); (0, 3%nat); (4, 2%nat); (5, 2%nat); (0, 4%nat); (1, 5%nat);
         (4, 1%nat); (5, 1%nat)].
Proof.
  split; [|reflexivity]. unfold proper_tree. cbn.
  repeat constructor; cbn; intuition lia.
Qed.

(** The full claim fails: the context of a rule with labelled alternatives that is left when the parse
    fails before an alternative is chosen gets neither enter_every_rule nor exit_every_rule. *)
Theorem C49_plain_context_refuted : exists t, proper_tree t /\
  (exists i k x a cs, t = Rule i true k x a cs) /\
  forall L (K : listener L) l, exists n, forall fuel, (n <= fuel)%nat -> walk_inner K fuel l t = Val l.
Proof.
  exists (Rule 1 true 7 0 0 []). split; [unfold proper_tree; cbn; repeat constructor; cbn; tauto|].
  split; [repeat eexists|]. intros L K l. exists 1%nat. intros [|fuel] Hf; [lia|]. reflexivity.
Qed.
Print Assumptions C49_plain_context_refuted.

(** C50 *)
Theorem C50_text_of_leaves : forall t, exists n, forall fuel, (n <= fuel)%nat ->
  get_text fuel t = Val (concat (map leaf_text (frontier t))).
Proof. exact get_text_frontier. Qed.
Print Assumptions C50_text_of_leaves.

Example C50_nonvacuous : get_text 3 row_node = Val [97; 9; 44; 63].
Proof. reflexivity. Qed.

(** C51: rendering follows the shape of the tree. *)
Theorem C51_rendering : forall names t sh, shaped names t sh ->
  exists s, rendered label_escape sh s /\
    exists n, forall fuel, (n <= fuel)%nat -> string_tree fuel t names = Val s.
Proof.
  intros names t sh H. exists (render sh). split; [apply render_rendered|]. now apply string_tree_render.
Qed.
Print Assumptions C51_rendering.

(** C51: trees with clean labels and the same rendering have the same shape. *)
Theorem C51_faithful : forall names1 names2 t1 t2 sh1 sh2 f1 f2 s,
  shaped names1 t1 sh1 -> shaped names2 t2 sh2 -> clean_shape sh1 -> clean_shape sh2 ->
  string_tree f1 t1 names1 = Val s -> string_tree f2 t2 names2 = Val s -> sh1 = sh2.
Proof.
  intros names1 names2 t1 t2 sh1 sh2 f1 f2 s H1 H2 C1 C2 E1 E2.
  destruct (string_tree_render _ _ _ H1) as [n1 R1]. destruct (string_tree_render _ _ _ H2) as [n2 R2].
  apply (string_tree_mono f1 (Nat.max f1 n1)) in E1; [|lia].
  apply (string_tree_mono f2 (Nat.max f2 n2)) in E2; [|lia].
  rewrite R1 in E1 by lia. rewrite R2 in E2 by lia. injection E1 as E1. injection E2 as E2.
  refine (proj1 (render_inj sh1 sh2 [] [] C1 C2 _ _ _)); [left; reflexivity|left; reflexivity|congruence].
Qed.
Print Assumptions C51_faithful.

(** A rule index without a name makes printing panic: the hypothesis [shaped] cannot be dropped. *)
Theorem C51_unnamed_panics : forall names t x, within t x -> (forall s, ~ named names x s) ->
  exists n, forall fuel, (n <= fuel)%nat -> string_tree fuel t names = Panics.
Proof. intros names t x. apply string_tree_panics. Qed.
Print Assumptions C51_unnamed_panics.

Definition row_shape := Shape [114] [Shape [102; 105] [Shape [97; 9] []]; Shape [44] []; Shape [63] []].
Example C51_nonvacuous : shaped row_names row_node row_shape /\ clean_shape row_shape /\
  (* (r (fi a\t) , ?) *)
  string_tree 3 row_node row_names
  = Val [40; 114; 32; 40; 102; 105; 32; 97; 92; 116; 41; 32; 44; 32; 63; 41].
Proof.
  split; [|split; [|reflexivity]].
  - constructor; [exact (named_rule row_names 1 false 8 1 _ [114] eq_refl)|].
    repeat constructor. exact (named_rule row_names 2 false 7 0 _ [102; 105] eq_refl).
  - repeat (constructor; [repeat constructor; lia|]). repeat constructor; lia.
Qed.

(** C68 *)
Theorem C68_escape_pieces : forall s b, exists ps,
  Forall2 (escapes b) s ps /\ escape_whitespaces s b = concat ps.
Proof.
  intros s b. exists (map (escape_char b) s). split; [|apply escape_concat].
  induction s; cbn; constructor; auto using escape_char_ok.
Qed.
Print Assumptions C68_escape_pieces.

Theorem C68_no_whitespace : forall s b c, In c (escape_whitespaces s b) ->
  c <> 9 /\ c <> 10 /\ c <> 13 /\ (b = true -> c <> 32).
Proof.
  intros s b c H. destruct (C68_escape_pieces s b) as (ps & HF & E). rewrite E in H. clear E.
  induction HF as [|x p s ps Hx HF IH]; cbn in H; [contradiction|].
  apply in_app_iff in H. destruct H as [H|H]; [|auto].
  destruct Hx; cbn in H; repeat (destruct H as [H|H]); try contradiction; subst c;
    repeat split; try lia; auto.
Qed.
Print Assumptions C68_no_whitespace.

Theorem C68_distributes : forall s1 s2 b,
  escape_whitespaces (s1 ++ s2) b = escape_whitespaces s1 b ++ escape_whitespaces s2 b.
Proof. intros. rewrite !escape_concat, map_app, concat_app. reflexivity. Qed.
Print Assumptions C68_distributes.

Theorem C68_injective : forall s1 s2 b,
  Forall (fun c => c <> 92 /\ c <> 183) s1 -> Forall (fun c => c <> 92 /\ c <> 183) s2 ->
  escape_whitespaces s1 b = escape_whitespaces s2 b -> s1 = s2.
Proof.
  intros s1 s2 b H1 H2. apply escape_inj; (eapply Forall_impl; [|eassumption]); cbn; tauto.
Qed.
Print Assumptions C68_injective.

Example C68_nonvacuous :
  escape_whitespaces [97; 32; 9; 98] true = [97; 183; 92; 116; 98] /\
  escape_whitespaces [97; 32; 9; 98] false = [97; 32; 92; 116; 98] /\
  Forall (fun c => c <> 92 /\ c <> 183) [97; 32; 9; 98].
Proof. repeat split; repeat constructor; lia. Qed.

(** C69: a context whose ancestors below the root were all invoked from a state, under a root that was
    not, yields the invoking states innermost first, one per nesting level. *)
Theorem C69_states_stack : forall c l root, ancestry c (l ++ [root]) ->
  Forall (fun d => 0 <= invoking d) l -> invoking root < 0 ->
  exists states, states_stack c = Val states /\ states = map invoking l /\ length states = length l.
Proof.
  intros c l root Ha Hl Hr. exists (map invoking l). rewrite map_length.
  split; [now apply (states_stack_ok c l root)|auto].
Qed.
Print Assumptions C69_states_stack.

(** Without such a root the iterator panics. *)
Theorem C69_missing_parent_panics : forall c l, ancestry c l -> Forall (fun d => 0 <= invoking d) l ->
  states_stack c = Panics.
Proof. exact states_stack_orphan. Qed.
Print Assumptions C69_missing_parent_panics.

Definition root_ctx := Ctx 1 0 (-1) None.
Definition inner_ctx := Ctx 3 2 17 (Some (Ctx 2 1 4 (Some root_ctx))).
Example C69_nonvacuous :
  ancestry inner_ctx ([inner_ctx; Ctx 2 1 4 (Some root_ctx)] ++ [root_ctx]) /\
  Forall (fun d => 0 <= invoking d) [inner_ctx; Ctx 2 1 4 (Some root_ctx)] /\ invoking root_ctx < 0 /\
  states_stack inner_ctx = Val [17; 4].
Proof. cbn. repeat split; repeat constructor; cbn; lia. Qed.

(** C70 *)
Theorem C70_get_tokens : forall t ty, selects (terminal_of_type ty) (kids t) (get_tokens t ty).
Proof.
  intros t ty. unfold get_tokens. rewrite get_children_kids, tokens_filter. apply selects_filter. apply tokb_ok.
Qed.
Print Assumptions C70_get_tokens.

Theorem C70_get_token : forall t ty r i, selects (terminal_of_type ty) (kids t) r ->
  get_token t ty i = nth_error r i.
Proof.
  intros t ty r i H. unfold get_token. rewrite get_children_kids, tokens_filter. f_equal.
  induction H as [|x l r Hx H IH|x l r Hx H IH]; cbn; [reflexivity| |].
  - rewrite (proj2 (tokb_ok ty x) Hx). now f_equal.
  - destruct (tokb ty x) eqn:E; [apply tokb_ok in E; contradiction|assumption].
Qed.
Print Assumptions C70_get_token.

Theorem C70_children_of_type : forall t k, selects (rule_of_kind k) (kids t) (children_of_type t k).
Proof.
  intros t k. unfold children_of_type. rewrite get_children_kids. apply selects_filter. apply has_kind_ok.
Qed.
Print Assumptions C70_children_of_type.

Theorem C70_child_of_type : forall t k r i, selects (rule_of_kind k) (kids t) r ->
  child_of_type t k i = nth_error r i.
Proof.
  intros t k r i H. unfold child_of_type. rewrite get_children_kids. f_equal.
  induction H as [|x l r Hx H IH|x l r Hx H IH]; cbn; [reflexivity| |].
  - rewrite (proj2 (has_kind_ok k x) Hx). now f_equal.
  - destruct (has_kind k x) eqn:E; [apply has_kind_ok in E; contradiction|assumption].
Qed.
Print Assumptions C70_child_of_type.

Example C70_nonvacuous :
  get_tokens row_node 6 = [Leaf 4 false 6 [44] 1] /\ get_token row_node 6 0 = Some (Leaf 4 false 6 [44] 1) /\
  get_token row_node 6 1 = None /\ child_of_type row_node 7 0 = Some field_node.
Proof. repeat split. Qed.

(** C75: the printed rule stack. *)
Theorem C75_rule_stack : forall names stop c l r shown,
  ancestry c l -> below stop l r -> Forall2 (shown_as names) r shown -> Forall (fun c => 0 <= rule_of c) l ->
  rule_stack_string c names stop = [91] ++ spaced (concat shown) ++ [93].
Proof. exact rule_stack_ok. Qed.
Print Assumptions C75_rule_stack.

Example C75_nonvacuous :
  below (Some 1%nat) [inner_ctx; Ctx 2 1 4 (Some root_ctx); root_ctx] [inner_ctx; Ctx 2 1 4 (Some root_ctx)] /\
  Forall2 (shown_as None) [inner_ctx; Ctx 2 1 4 (Some root_ctx)] [[[49; 55]]; [[52]]] /\
  rule_stack_string inner_ctx None (Some 1%nat) = [91; 49; 55; 32; 52; 93] /\
  (* rule 2 has no name: its number is shown *)
  rule_stack_string inner_ctx (Some [[97]; [98; 99]]) None = [91; 50; 32; 98; 99; 32; 97; 93].
Proof.
  split; [|split; [|split; reflexivity]].
  - repeat (apply below_next; [cbn; congruence|]). now apply below_stop.
  - assert (D : forall s z, decimal_of (isize_to_string z) z -> s = isize_to_string z -> decimal_of s z)
      by (intros; subst; auto).
    repeat (constructor; [|]); try apply Forall2_nil; (eapply shown_state; [reflexivity|cbn; lia|]); (apply D; [apply isize_to_string_ok|reflexivity]).
Qed.

(** C76: visiting. The result of a visit depends only on the user's part of the visitor, not on what an
    earlier visit left in the temporary storage, which is cleared. *)
Theorem C76_visit : forall V R (K : visitor V R) t, (forall x, within t x -> ~ plain_rule x) ->
  forall v tmp, exists v' r, visits K t v v' r /\
    exists n, forall fuel, (n <= fuel)%nat -> visit K fuel t (v, tmp) = Val ((v', v_default K), r).
Proof. intros V R K. apply visit_ok. Qed.
Print Assumptions C76_visit.

(** A visitor that only overrides the leaf callbacks sees every leaf once, left to right. *)
Theorem C76_leaves_in_order : forall V R (K : visitor V R) t,
  (forall x, v_rule K x = None) -> (forall x r, v_more K x r = true) -> (forall x, within t x -> ~ plain_rule x) ->
  forall v tmp, exists n r, forall fuel, (n <= fuel)%nat ->
    visit K fuel t (v, tmp) =
    Val ((fold_left (fun v x => match x with
                                | Leaf _ false _ _ _ => fst (v_terminal K x v)
                                | Leaf _ true _ _ _ => fst (v_error K x v)
                                | Rule _ _ _ _ _ _ => v
                                end) (frontier t) v, v_default K), r).
Proof.
  intros V R K t Hr Hm Hp v tmp. destruct (visit_ok K t Hp v tmp) as (v' & r & Hv & n & Hn).
  exists n, r. intros fuel Hf. rewrite Hn by assumption.
  now rewrite (visits_frontier K t Hr Hm v v' r Hv).
Qed.
Print Assumptions C76_leaves_in_order.

(** Plain contexts cannot be visited: the hypothesis cannot be dropped. *)
Theorem C76_plain_context_panics : forall V R (K : visitor V R) t st, plain_rule t ->
  exists n, forall fuel, (n <= fuel)%nat -> visit K fuel t st = Panics.
Proof. intros V R K. apply visit_plain. Qed.
Print Assumptions C76_plain_context_panics.

Definition summing : visitor (list nat) Z :=
  Visitor 0 (fun t v => (v ++ [n_id t], 1)) (fun t v => (v ++ [n_id t], 10)) (fun _ => None) Z.add (fun _ _ => true).
Example C76_nonvacuous : (forall x, within row_node x -> ~ plain_rule x) /\
  visit summing 5 row_node ([], 99) = Val ([3; 4; 5]%nat, 0, 12).
Proof.
  split; [|reflexivity]. intros x Hx (i & k & y & a & cs & ->).
  repeat (apply within_inv in Hx; destruct Hx as [Hx|(? & Hc & Hx)]; [discriminate|];
          cbn in Hc; repeat (destruct Hc as [<-|Hc]; [try (apply within_inv in Hx; destruct Hx as [Hx|(? & [] & _)]; discriminate)|]);
          try contradiction).
Qed.
