(** Vocabulary for the properties of parse trees. Only the data type of trees and the callback
    records are taken from the model; none of its functions. *)
From Coq Require Import ZArith List Bool Lia.
From Verif Require Import TreeModel.
Import ListNotations.
Local Open Scope Z_scope.

(** ** Trees *)

Definition kids (t : node) : list node :=
  match t with Leaf _ _ _ _ _ => [] | Rule _ _ _ _ _ cs => cs end.

Definition identity (t : node) : nat :=
  match t with Leaf i _ _ _ _ => i | Rule i _ _ _ _ _ => i end.

(** [d] is the node [t] or one of its descendants. *)
Inductive within : node -> node -> Prop :=
| within_here t : within t t
| within_kid t c d : In c (kids t) -> within c d -> within t d.

(** All node identities of a tree; different nodes of a tree have different identities. *)
Fixpoint identities (t : node) : list nat :=
  match t with
  | Leaf i _ _ _ _ => [i]
  | Rule i _ _ _ _ cs => i :: flat_map identities cs
  end.
Definition proper_tree (t : node) : Prop := NoDup (identities t).

(** The leaves, left to right. *)
Fixpoint frontier (t : node) : list node :=
  match t with
  | Leaf _ _ _ _ _ => [t]
  | Rule _ _ _ _ _ cs => flat_map frontier cs
  end.
Definition leaf_text (t : node) : text :=
  match t with Leaf _ _ _ s _ => s | Rule _ _ _ _ _ _ => [] end.

Definition terminal_leaf (t : node) : Prop := exists i ty s x, t = Leaf i false ty s x.
Definition error_leaf (t : node) : Prop := exists i ty s x, t = Leaf i true ty s x.
(** A rule node with callbacks of its own; the others are the plain contexts of rules whose
    alternatives are all labelled. *)
Definition called_rule (t : node) : Prop := exists i k x a cs, t = Rule i false k x a cs.
Definition plain_rule (t : node) : Prop := exists i k x a cs, t = Rule i true k x a cs.

(** ** Walking *)

Inductive event :=
| VisitTerminal (t : node) | VisitErrorNode (t : node)
| EnterEveryRule (t : node) | EnterRule (t : node)
| ExitRule (t : node) | ExitEveryRule (t : node).

Definition subject (e : event) : node :=
  match e with
  | VisitTerminal t | VisitErrorNode t | EnterEveryRule t | EnterRule t | ExitRule t | ExitEveryRule t => t
  end.

(** Deliver an event to a listener. *)
Definition deliver {L} (K : listener L) (l : L) (e : event) : L :=
  match e with
  | VisitTerminal t => visit_terminal K t l
  | VisitErrorNode t => visit_error_node K t l
  | EnterEveryRule t => enter_every_rule K t l
  | EnterRule t => enter_rule K t l
  | ExitRule t => exit_rule K t l
  | ExitEveryRule t => exit_every_rule K t l
  end.

(** The events that must be fired for the node they are about. *)
Definition due (e : event) : Prop :=
  match e with
  | VisitTerminal t => terminal_leaf t
  | VisitErrorNode t => error_leaf t
  | EnterEveryRule t | EnterRule t | ExitRule t | ExitEveryRule t => called_rule t
  end.

Definition before (evs : list event) (e1 e2 : event) : Prop :=
  exists l1 l2 l3, evs = l1 ++ e1 :: l2 ++ e2 :: l3.

(** Document order: every due event about a node of the tree is there, once, and nothing else;
    the events about descendants lie between the enter and the exit events of their ancestors; events
    about a node and its descendants come before those about later siblings. *)
Record document_order (t : node) (evs : list event) : Prop := {
  do_once : NoDup evs;
  do_events : forall e, In e evs <-> within t (subject e) /\ due e;
  do_enter : forall x, within t x -> called_rule x -> before evs (EnterEveryRule x) (EnterRule x);
  do_exit : forall x, within t x -> called_rule x -> before evs (ExitRule x) (ExitEveryRule x);
  do_body : forall x, within t x -> called_rule x -> before evs (EnterRule x) (ExitRule x);
  do_nested : forall x c e, within t x -> called_rule x -> In c (kids x) -> within c (subject e) -> due e ->
                before evs (EnterRule x) e /\ before evs e (ExitRule x);
  do_siblings : forall x l1 c1 l2 c2 l3 e1 e2, within t x -> kids x = l1 ++ c1 :: l2 ++ c2 :: l3 ->
                within c1 (subject e1) -> due e1 -> within c2 (subject e2) -> due e2 ->
                before evs e1 e2 }.

(** ** Visiting *)

(** [visits K t v v' r]: visiting [t] with the user state [v] ends in the user state [v'] with the
    result [r]: leaves and overridden rule methods answer themselves; an ordinary rule node visits its
    children from left to right, as long as the visitor wants the next one, combining the results. *)
Section Visits.
  Context {V R : Type}.
  Variable K : visitor V R.
  Inductive visits : node -> V -> V -> R -> Prop :=
  | vs_terminal t v : terminal_leaf t -> visits t v (fst (v_terminal K t v)) (snd (v_terminal K t v))
  | vs_error t v : error_leaf t -> visits t v (fst (v_error K t v)) (snd (v_error K t v))
  | vs_override t v f : called_rule t -> v_rule K t = Some f -> visits t v (fst (f v)) (snd (f v))
  | vs_children t v v' r : called_rule t -> v_rule K t = None ->
      visits_list (kids t) v (v_default K) v' r -> visits t v v' r
  with visits_list : list node -> V -> R -> V -> R -> Prop :=
  | vl_end v acc : visits_list [] v acc v acc
  | vl_stop c cs v acc : v_more K c acc = false -> visits_list (c :: cs) v acc v acc
  | vl_next c cs v acc v1 r1 v2 r2 : v_more K c acc = true ->
      visits c v v1 r1 -> visits_list cs v1 (v_aggregate K acc r1) v2 r2 ->
      visits_list (c :: cs) v acc v2 r2.
End Visits.

(** ** Printing *)

(** What escaping may turn a character into. *)
Inductive escapes (spaces : bool) : Z -> text -> Prop :=
| esc_tab : escapes spaces 9 [92; 116]       (* \t *)
| esc_newline : escapes spaces 10 [92; 110]  (* \n *)
| esc_return : escapes spaces 13 [92; 114]   (* \r *)
| esc_blank : spaces = true -> escapes spaces 32 [183]
| esc_other c : c <> 9 -> c <> 10 -> c <> 13 -> (spaces = true -> c <> 32) -> escapes spaces c [c].

(** [t] consists of optional minus sign and decimal digits without leading zeros, denoting [z]. *)
Definition digits_value (s : text) : Z := fold_left (fun acc d => 10 * acc + (d - 48)) s 0.
Definition decimal_digits (s : text) : Prop :=
  Forall (fun d => 48 <= d <= 57) s /\ s <> [] /\ (hd 0 s = 48 -> s = [48]).
Definition decimal_of (s : text) (z : Z) : Prop :=
  (0 <= z /\ decimal_digits s /\ digits_value s = z) \/
  (z < 0 /\ exists s', s = 45 :: s' /\ decimal_digits s' /\ digits_value s' = - z).

(** The name of a node: the text of a leaf; the name of a rule, with its alternative number if it has one. *)
Inductive named (names : list text) : node -> text -> Prop :=
| named_leaf i e ty s x : named names (Leaf i e ty s x) s
| named_rule i p k n cs nm : nth_error names n = Some nm ->
    named names (Rule i p k (Z.of_nat n) 0 cs) nm
| named_alt i p k n a cs nm d : nth_error names n = Some nm -> a <> 0 -> decimal_of d a ->
    named names (Rule i p k (Z.of_nat n) a cs) (nm ++ 58 :: d).

(** A labelled ordered tree. *)
Inductive shape := Shape (label : text) (subs : list shape).

Inductive shaped (names : list text) : node -> shape -> Prop :=
| shaped_node t s subs : named names t s -> Forall2 (shaped names) (kids t) subs ->
    shaped names t (Shape s subs).

(** Rendering of a shape: its label, or [(label sub ... sub)]. *)
Inductive rendered (esc : text -> text -> Prop) : shape -> text -> Prop :=
| rendered_leaf s s' : esc s s' -> rendered esc (Shape s []) s'
| rendered_node s s' subs texts : subs <> [] -> esc s s' -> Forall2 (rendered esc) subs texts ->
    rendered esc (Shape s subs) ([40] ++ s' ++ flat_map (fun u => [32] ++ u) texts ++ [41]).

(** Escaping of a label: the line breaks and tabs of every character are replaced, blanks are not. *)
Definition label_escape (s s' : text) : Prop := exists ps, Forall2 (escapes false) s ps /\ s' = concat ps.

(** Labels without blanks, parentheses and backslashes. *)
Definition clean (s : text) : Prop := Forall (fun c => c <> 32 /\ c <> 40 /\ c <> 41 /\ c <> 92) s.
Inductive clean_shape : shape -> Prop :=
| clean_intro s subs : clean s -> Forall clean_shape subs -> clean_shape (Shape s subs).

(** ** Contexts *)

(** [ancestry c l]: following the parent links from [c] up to a context without parent meets exactly [l]. *)
Inductive ancestry : ctx -> list ctx -> Prop :=
| anc_root i r s : ancestry (Ctx i r s None) [Ctx i r s None]
| anc_step i r s q l : ancestry q l -> ancestry (Ctx i r s (Some q)) (Ctx i r s (Some q) :: l).

Definition invoking (c : ctx) : Z := match c with Ctx _ _ s _ => s end.
Definition rule_of (c : ctx) : Z := match c with Ctx _ r _ _ => r end.
Definition ident (c : ctx) : nat := match c with Ctx i _ _ _ => i end.

(** Texts separated by single blanks. *)
Fixpoint spaced (l : list text) : text :=
  match l with
  | [] => []
  | [s] => s
  | s :: rest => s ++ [32] ++ spaced rest
  end.

(** What the printed rule stack shows for one context. *)
Inductive shown_as (names : option (list text)) : ctx -> list text -> Prop :=
| shown_name ns c n nm : names = Some ns -> rule_of c = Z.of_nat n -> nth_error ns n = Some nm ->
    shown_as names c [nm]
| shown_number ns c n d : names = Some ns -> rule_of c = Z.of_nat n -> nth_error ns n = None ->
    decimal_of d (rule_of c) -> shown_as names c [d]
| shown_state c d : names = None -> invoking c <> -1 -> decimal_of d (invoking c) -> shown_as names c [d]
| shown_root c : names = None -> invoking c = -1 -> shown_as names c [].

(** The contexts of an ancestry strictly below the context [stop], if it occurs there. *)
Inductive below (stop : option nat) : list ctx -> list ctx -> Prop :=
| below_end : below stop [] []
| below_stop c l : stop = Some (ident c) -> below stop (c :: l) []
| below_next c l r : stop <> Some (ident c) -> below stop l r -> below stop (c :: l) (c :: r).

(** ** Children of a kind *)

Definition terminal_of_type (ty : Z) (t : node) : Prop := exists i s x, t = Leaf i false ty s x.
Definition rule_of_kind (k : nat) (t : node) : Prop := exists i p x a cs, t = Rule i p k x a cs.

(** [r] consists of the elements of [l] that satisfy [P], in order. *)
Inductive selects {A} (P : A -> Prop) : list A -> list A -> Prop :=
| sel_nil : selects P [] []
| sel_take x l r : P x -> selects P l r -> selects P (x :: l) (x :: r)
| sel_drop x l r : ~ P x -> selects P l r -> selects P (x :: l) r.
