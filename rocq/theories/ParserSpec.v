(** Vocabulary for the properties of the parser driver: parse trees as plain values,
    what a run has consumed, the events of parse listeners. *)
From Coq Require Import ZArith List Bool.
From Verif Require Import Outcome IntervalSetModel AtnModel TokenStreamModel TokenStreamSpec ParserModel.
Import ListNotations.
Local Open Scope Z_scope.

(** ** Parse trees *)
Inductive tree : Type :=
| Leaf (t : tok)
| ErrLeaf (t : tok)
| Node (rule : Z) (kind : nat) (kids : list tree).

(** the tokens at the leaves, from left to right *)
Fixpoint leaves (t : tree) : list tok :=
  match t with
  | Leaf t | ErrLeaf t => [t]
  | Node _ _ ks => flat_map leaves ks
  end.
Definition is_leaf (t : tree) : Prop := match t with Node _ _ _ => False | _ => True end.

(** [shows h k t]: the child [k] of some context, followed through the heap [h], is the tree [t] *)
Inductive shows (h : heap) : kid -> tree -> Prop :=
| sh_term : forall t, shows h (KTerm t) (Leaf t)
| sh_err : forall t, shows h (KErr t) (ErrLeaf t)
| sh_rule : forall i c ks, nth_error h i = Some c -> Forall2 (shows h) (x_children c) ks ->
    shows h (KRule i) (Node (x_rule c) (x_kind c) ks).

(** ** What a run consumes *)
(** [past s]: the tokens consumed from the stream [s] so far, in order, for the states
    that satisfy [Inv].  Looking ahead or back consumes nothing. *)
Record history {S} (ts : stream_ops S) (Inv : S -> Prop) (past : S -> list tok) : Prop := History {
  h_lt : forall s k s' t, Inv s -> s_lt ts s k = Val (s', t) -> Inv s' /\ past s' = past s;
  h_consume : forall s t s', Inv s -> s_get ts s (s_index ts s) = Val t -> s_consume ts s = Val s' ->
    Inv s' /\ past s' = past s ++ [t]
}.

(** Merging two lists, keeping the order of each. *)
Inductive merged {A} : list A -> list A -> list A -> Prop :=
| m_nil : merged [] [] []
| m_left : forall x l r m, merged l r m -> merged (x :: l) r (x :: m)
| m_right : forall x l r m, merged l r m -> merged l (x :: r) (x :: m).

(** A leaf that was not consumed from the input: the end-of-input token, which stays
    where it is when it is matched, or a conjured token. *)
Definition not_consumed (t : tok) : Prop := t_type t = -1 \/ t_index t = -1.

(** ** Histories of generated rule functions *)
(** Only rule functions of left-recursive rules relabel their primary and push contexts;
    only the others replace their context when they enter a labelled alternative. *)
Fixpoint generated (left_recursive : bool) (c : call) : Prop :=
  match c with
  | CAlt (Some _) => left_recursive = false
  | CLabel _ | CNext _ _ => left_recursive = true
  | CRule _ _ _ body => fold_right (fun c P => generated false c /\ P) True body
  | CRec _ _ _ _ body => fold_right (fun c P => generated true c /\ P) True body
  | _ => True
  end.
Definition generated_body (left_recursive : bool) (body : list call) : Prop :=
  Forall (generated left_recursive) body.

(** a call of a generated rule function *)
Definition rule_call (c : call) : Prop :=
  match c with
  | CRule _ _ _ body => generated_body false body
  | CRec _ _ _ _ body => generated_body true body
  | _ => False
  end.
Definition rule_of (c : call) : Z := match c with CRule r _ _ _ | CRec r _ _ _ _ => r | _ => -1 end.
Definition body_of (c : call) : list call := match c with CRule _ _ _ b | CRec _ _ _ _ b => b | _ => [] end.
(** the bail-out strategy's cancellation is not caught by rule functions *)
Definition cancelled (r : option perr) : Prop := exists c, r = Some (FallThrough c).
(** the current context of a parser, if there is one, exists *)
Definition ctx_exists {S} (p : parser S) : Prop := forall i, p_ctx p = Some i -> (i < length (p_heap p))%nat.

(** The context [n] of [rule] was added between [p] and [p']: its parent is the context of
    the caller; if trees are built the caller's context got [n] as one more child, and
    nothing else about the contexts that existed before has changed. *)
Definition attached {S} (rule : Z) (n : nat) (p p' : parser S) : Prop :=
  (length (p_heap p) <= n)%nat /\
  (exists c, nth_error (p_heap p') n = Some c /\ x_parent c = p_ctx p /\ x_rule c = rule) /\
  forall j c, nth_error (p_heap p) j = Some c ->
    nth_error (p_heap p') j = Some (set_children (x_children c ++ if p_build p && same_ctx (p_ctx p) (Some j) then [KRule n] else []) c).

(** ** The trees a run may build

    [content] is what is known of the context under construction: its label and its
    children.  [grows c x y]: the call [c] made the content [x] into [y];
    [makes rule body t]: a call of the rule with the given body made the tree [t]. *)
Definition content := (nat * list tree)%type.
(** calls that may add leaves, and calls that never touch the tree *)
Definition may_add_leaves (c : call) : Prop :=
  match c with CSync | CMatch _ | CWildcard | CMatchSet _ => True | _ => False end.
Definition adds_nothing (c : call) : Prop :=
  match c with
  | CSetState _ | CLook _ | CPrec _ | CAlt None | CSetStop | CExitEvent => True
  | _ => False
  end.
Inductive grows : Z -> call -> content -> content -> Prop :=
| g_leaves : forall rule c k ts more, may_add_leaves c -> Forall is_leaf more -> grows rule c (k, ts) (k, ts ++ more)
| g_quiet : forall rule c k ts, adds_nothing c -> grows rule c (k, ts) (k, ts)
| g_alt : forall rule k ts k', grows rule (CAlt (Some k')) (k, ts) (k', ts)
| g_label : forall rule k ts k', grows rule (CLabel k') (k, ts) (k', ts)
| g_next : forall rule k ts k' pl, grows rule (CNext k' pl) (k, ts) (k', [Node rule k ts])
| g_rule : forall rule r s pl body k ts t, makes r body t -> grows rule (CRule r s pl body) (k, ts) (k, ts ++ [t])
| g_rec : forall rule r s n pl body k ts t, makes r body t -> grows rule (CRec r s n pl body) (k, ts) (k, ts ++ [t])
with grows_all : Z -> list call -> content -> content -> Prop :=
| ga_nil : forall rule x, grows_all rule [] x x
| ga_cons : forall rule c cs x y z, grows rule c x y -> grows_all rule cs y z -> grows_all rule (c :: cs) x z
with makes : Z -> list call -> tree -> Prop :=
  (* the calls [don] of the body were made; the leaves error recovery added come after them *)
| mk_tree : forall rule body don rest k ts skipped, body = don ++ rest -> grows_all rule don (0%nat, []) (k, ts) ->
    Forall is_leaf skipped -> (rest = [] -> skipped = []) -> makes rule body (Node rule k (ts ++ skipped)).

(** ** Parse listeners *)
(** Who is told about an event, in which order. *)
Definition told (ls : list plistener) (e : event) : list (plistener * event) :=
  map (fun l => (l, e)) (match e with ExitRule _ => rev ls | _ => ls end).
(** Between [p] and [p'] the listeners of [p] were told exactly the events [es]. *)
Definition delivers {S} (p p' : parser S) (es : list event) : Prop :=
  p_listeners p' = p_listeners p /\ p_events p' = p_events p ++ flat_map (told (p_listeners p)) es.

(** Reading events as brackets: the contexts entered and not yet left, innermost first.
    [None]: a context is left that is not the innermost one entered. *)
Fixpoint brackets (opened : list nat) (es : list event) : option (list nat) :=
  match es with
  | [] => Some opened
  | EnterRule i :: es => brackets (i :: opened) es
  | ExitRule i :: es =>
      match opened with
      | j :: opened => if Nat.eqb i j then brackets opened es else None
      | [] => None
      end
  | _ :: es => brackets opened es
  end.
Definition balanced (es : list event) : Prop := brackets [] es = Some [].

(** The events a tree stands for: a walk over it.  A context whose callbacks are the default
    ones ([x_plain]) shows only what happens below it.  A context of a left-recursive rule
    may also be announced after its first child, an earlier context of the same rule, has
    been left.  No callback is made for the node of a conjured token. *)
Definition around (i : nat) (c : rctx) (es : list event) : list event :=
  if x_plain c then es else EnterRule i :: es ++ [ExitRule i].
Inductive walk (h : heap) : kid -> list event -> Prop :=
| w_term : forall t, walk h (KTerm t) [VisitTerminal t]
| w_err : forall t, walk h (KErr t) [VisitError t]
| w_missing : forall t, t_index t = -1 -> walk h (KErr t) []
| w_rule : forall i c es, nth_error h i = Some c -> walks h (x_children c) es -> walk h (KRule i) (around i c es)
| w_left : forall i c j d ks es es', nth_error h i = Some c -> x_children c = KRule j :: ks ->
    nth_error h j = Some d -> x_rule d = x_rule c -> walk h (KRule j) es -> walks h ks es' ->
    walk h (KRule i) (es ++ around i c es')
with walks (h : heap) : list kid -> list event -> Prop :=
| ws_nil : walks h [] []
| ws_cons : forall k ks es es', walk h k es -> walks h ks es' -> walks h (k :: ks) (es ++ es').

(** ** Rule functions that announce the context they enter

    A generated rule function calls [enter_outer_alt] once, before its first match,
    whichever alternative it takes; each round of the loop of a left-recursive rule ends
    the previous context's callbacks before the next context is pushed.  Not in this class:
    left-recursive rules whose primary alternative is labelled. *)
Definition before_alt (c : call) : Prop :=
  match c with CSetState _ | CLook _ | CSync => True | _ => False end.
Definition inside (c : call) : Prop :=
  match c with
  | CSetState _ | CLook _ | CSync | CMatch _ | CWildcard | CMatchSet _ | CPrec _ | CRaise _ | CSetStop => True
  | _ => False
  end.
(** [opened]: the callbacks of the current context were started and not ended *)
Inductive rounds (P : call -> Prop) : bool -> list call -> Prop :=
| ro_nil : rounds P true []
| ro_call : forall c cs, P c -> rounds P true cs -> rounds P true (c :: cs)
| ro_between : forall c cs, before_alt c -> rounds P false cs -> rounds P false (c :: cs)
| ro_exit : forall cs, rounds P false cs -> rounds P true (CExitEvent :: cs)
| ro_next : forall k pl cs, rounds P true cs -> rounds P false (CNext k pl :: cs).
Inductive announced : call -> Prop :=
| an_inside : forall c, inside c -> announced c
| an_rule : forall r s pl pre l post, Forall before_alt pre -> Forall announced post ->
    announced (CRule r s pl (pre ++ CAlt l :: post))
| an_rec : forall r s n pl pre post, Forall before_alt pre -> rounds announced true post ->
    announced (CRec r s n pl (pre ++ CAlt None :: post)).

(** ** The tokens a parser has consumed from a CommonTokenStream: those it can see on its
    channel before the cursor (the stream starts at token 0 whatever its channel is). *)
Definition seen_b (src : nat -> tok) (channel : Z) (n : nat) : bool :=
  Nat.eqb n 0 || (TokenStreamModel.t_channel (src n) =? channel) || (t_type (src n) =? TOKEN_EOF).
Definition tokens_before (src : nat -> tok) (channel : Z) (n : nat) : list tok :=
  map (TokenStreamSpec.tok_at src) (filter (seen_b src channel) (seq 0 n)).

(** ** Left recursion: each earlier context is the first child of the next one *)
Fixpoint nest (rule : Z) (x : content) (later : list content) : content :=
  match later with
  | [] => x
  | (k, more) :: later => nest rule (k, Node rule (fst x) (snd x) :: more) later
  end.
(** Labels are chosen before the first context is pushed. *)
Definition keeps_label (c : call) : Prop := match c with CLabel _ | CAlt (Some _) => False | _ => True end.
Definition labels_first (cs : list call) : Prop :=
  forall don k pl rest, cs = don ++ CNext k pl :: rest -> Forall keeps_label rest.
(** the labels of the contexts pushed, in order *)
Definition pushed (cs : list call) : list nat :=
  flat_map (fun c => match c with CNext k _ => [k] | _ => [] end) cs.
