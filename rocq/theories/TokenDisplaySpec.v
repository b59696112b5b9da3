(** How tokens are printed (C102). *)
From Coq Require Import ZArith List Bool.
From Verif Require Import Text FactoryModel TreeModel TreeSpec.
Import ListNotations.
Local Open Scope Z_scope.

(** [[@index,start:stop='text',<type>channel,line:column]]: numbers in decimal, line breaks
    and tabs of the text as backslash and letter, the channel only if it is positive. *)
Record printed (s : text) (index start_ stop_ : Z) (shown : text) (type_ channel_ line_ column_ : Z) : Prop := Printed {
  pr_parts : exists i a b y c l k,
    s = lit "[@" ++ i ++ lit "," ++ a ++ lit ":" ++ b ++ lit "='" ++ shown ++ lit "',<" ++ y ++ lit ">" ++ c ++ lit "," ++ l ++ lit ":" ++ k ++ lit "]" /\
    decimal_of i index /\ decimal_of a start_ /\ decimal_of b stop_ /\ decimal_of y type_ /\ decimal_of l line_ /\ decimal_of k column_ /\
    ((0 < channel_ /\ decimal_of c channel_) \/ (channel_ <= 0 /\ c = []))
}.
(** everything that can be asked of a token *)
Definition same_answers (t u : token) : Prop :=
  token_type u = token_type t /\ channel u = channel t /\ start u = start t /\ stop u = stop t /\ token_index u = token_index t /\
  line u = line t /\ column u = column t /\ token_get_text u = token_get_text t.
