(** What a text is for a parser: the words made of the tokens of a reference lexer. *)
From Coq Require Import ZArith List Bool.
From Verif Require Import AtnModel MunchSpec LazyLexSpec.
Import ListNotations.
Local Open Scope Z_scope.

Definition ends_input (s : stretch) : Prop := match s_ending s with Made ty _ => ty = -1 | _ => False end.
(** The whole text: [ss] up to the first end-of-input token, then this one.  (If all decisions of the
    grammar are greedy, [lexes_lazily] is [lexes_to]: C106.) *)
Definition reads_text (a : atn) (cs : list Z) (ss : list stretch) (last : stretch) : Prop :=
  exists n, lexes_lazily a cs n (ss ++ [last]) /\ ends_input last /\ Forall (fun s => ~ ends_input s) ss.
(** the types of the tokens on a channel *)
Definition types_on (chan : Z) (ss : list stretch) : list Z :=
  flat_map (fun s => match s_ending s with Made ty c => if c =? chan then [ty] else [] | _ => [] end) ss.
(** the first token is on the channel *)
Definition opens_on (chan : Z) (ss : list stretch) : Prop :=
  match filter made ss with s :: _ => exists ty, s_ending s = Made ty chan | [] => False end.
