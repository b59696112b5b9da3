(** Vocabulary for the lexer and the parser put together: what becomes of the characters of
    the input. *)
From Coq Require Import ZArith List Bool.
From Verif Require Import CharStreamModel TokenStreamModel IntervalSetModel ParserModel ParserSpec SpanSpec.
From Verif Require FactoryModel.
Import ListNotations.
Local Open Scope Z_scope.

(** What the token stream and the parser see of a token of the lexer (token.rs 92-103:
    they are the same fields; start and stop index are left out, as only the lexer and the
    text use them) *)
Definition streamed (t : FactoryModel.token) : tok :=
  Tok (FactoryModel.token_type t) (FactoryModel.channel t) (FactoryModel.tk_text t) (FactoryModel.token_index t) (FactoryModel.line t) (FactoryModel.column t).
(** The lexer as a token source: the tokens [toks] one after the other, then [last] for ever *)
Definition lexed (toks : list FactoryModel.token) (last : FactoryModel.token) (n : nat) : tok := streamed (nth n toks last).

(** A stretch of the input: a leaf of the parse tree, a token on another channel, text the
    lexer skipped, or text it dropped with an error message. *)
Inductive part : Type :=
| InLeaf (t : tok)
| OffChannel (t : tok)
| SkippedText (s : list Z)
| DroppedText (s : list Z).
Definition part_text (p : part) : list Z :=
  match p with InLeaf t | OffChannel t => t_text t | SkippedText s | DroppedText s => s end.
Definition in_leaf (p : part) : list tok := match p with InLeaf t => [t] | _ => [] end.
Definition dropped (p : part) : list (list Z) := match p with DroppedText s => [s] | _ => [] end.

(** The first [upto] elements of the raw input are accounted for by the tree [T], whose
    parser reads the channel [chan], and the lexer's error [reports] (line, column, text):
    the leaves that were read (neither end of input nor made up by error recovery) in their
    order, text that was reported as it was dropped, and between them only tokens on other
    channels and skipped text. *)
Definition accounted (raw : list Z) (upto : nat) (chan : Z) (reports : list (Z * Z * list Z)) (T : tree) (parts : list part) : Prop :=
  concat (map part_text parts) = firstn upto raw /\
  flat_map in_leaf parts = read_leaves T /\
  (forall t, In (OffChannel t) parts -> t_channel t <> chan) /\
  (exists later, map (fun r => snd r) reports = flat_map dropped parts ++ later).
(** what the theorems ask of the lexer's tokens: the last one is the first EOF, and none of
    the others is empty *)
Definition whole_lexing (toks : list FactoryModel.token) (last : FactoryModel.token) : Prop :=
  Forall (fun t => FactoryModel.token_type t <> -1 /\ FactoryModel.start t <= FactoryModel.stop t) toks /\ FactoryModel.token_type last = -1.
