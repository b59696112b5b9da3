(** Proofs about printed tokens (C102). *)
From Coq Require Import ZArith List Bool Lia.
From Verif Require Import Text CharStreamModel FactoryModel TreeModel TreeSpec TreeProofs TokenDisplayModel TokenDisplaySpec.
Import ListNotations.
Local Open Scope Z_scope.

Lemma replace_app c r s u : replace c r (s ++ u) = replace c r s ++ replace c r u.
Proof. apply flat_map_app. Qed.
Lemma replaces_escape s : replace 9 (lit "\t") (replace 13 (lit "\r") (replace 10 (lit "\n") s)) = escape_whitespaces s false.
Proof.
  rewrite escape_concat. induction s as [|c s IH]; [reflexivity|]. cbn [map concat]. rewrite <- IH.
  change (c :: s) with ([c] ++ s). rewrite !replace_app. f_equal. unfold escape_char. rewrite andb_false_r. cbn [replace flat_map].
  destruct (Z.eqb_spec c 10) as [->|]; [reflexivity|]. cbn. destruct (Z.eqb_spec c 13) as [->|]; [reflexivity|]. cbn.
  destruct (Z.eqb_spec c 9) as [->|]; reflexivity.
Qed.
Definition shown_text (t : token) : text := escape_whitespaces (token_get_text t) false.
Lemma display_printed t : printed (display t) (token_index t) (start t) (stop t) (shown_text t) (token_type t) (channel t) (line t) (column t).
Proof.
  constructor. unfold display. rewrite replaces_escape. exists (isize_to_string (token_index t)), (isize_to_string (start t)), (isize_to_string (stop t)), (isize_to_string (token_type t)),
    (if channel t >? 0 then isize_to_string (channel t) else []), (isize_to_string (line t)), (isize_to_string (column t)).
  split; [reflexivity|]. repeat (split; [apply isize_to_string_ok|]). destruct (Z.gtb_spec (channel t) 0); [left; split; [lia | apply isize_to_string_ok] | right; split; [lia | reflexivity]].
Qed.

(** ** Reading the numbers back *)
Lemma decimal_chars s z : decimal_of s z -> Forall (fun c => c = 45 \/ 48 <= c <= 57) s.
Proof.
  intros [(_ & (F & _) & _)|(_ & u & -> & (F & _) & _)]; [|apply Forall_cons; [auto|]]; (eapply Forall_impl; [|exact F]); cbn; auto.
Qed.
Lemma decimal_once s z z' : decimal_of s z -> decimal_of s z' -> z = z'.
Proof.
  intros [(H & D1 & V1)|(H & u1 & E1 & D1 & V1)] [(H' & D2 & V2)|(H' & u2 & E2 & D2 & V2)].
  - congruence.
  - subst s. destruct D1 as (F & _). inversion F; lia.
  - subst s. destruct D2 as (F & _). inversion F; lia.
  - rewrite E1 in E2. injection E2 as <-. lia.
Qed.
Lemma split_left (c : Z) : forall s1 s2 r1 r2, ~ In c s1 -> ~ In c s2 -> s1 ++ c :: r1 = s2 ++ c :: r2 -> s1 = s2 /\ r1 = r2.
Proof.
  induction s1 as [|x s1 IH]; intros [|y s2] r1 r2 N1 N2 E; cbn in E.
  - injection E as E. auto.
  - injection E as -> _. destruct N2. left. reflexivity.
  - injection E as -> _. destruct N1. left. reflexivity.
  - injection E as -> E2. destruct (IH s2 r1 r2) as (-> & ->); auto; intros I; [apply N1 | apply N2]; right; exact I.
Qed.
Lemma split_right (c : Z) s1 s2 r1 r2 : ~ In c s1 -> ~ In c s2 -> r1 ++ c :: s1 = r2 ++ c :: s2 -> s1 = s2 /\ r1 = r2.
Proof.
  intros N1 N2 E. apply (f_equal (@rev Z)) in E. rewrite !rev_app_distr in E. cbn in E. rewrite <- !app_assoc in E. cbn in E.
  apply split_left in E as (E1 & E2); [|rewrite <- in_rev; assumption..]. split; [rewrite <- (rev_involutive s1), E1 | rewrite <- (rev_involutive r1), E2]; apply rev_involutive.
Qed.
Lemma no_char c s z : decimal_of s z -> c <> 45 -> ~ 48 <= c <= 57 -> ~ In c s.
Proof. intros D N1 N2 I. pose proof (proj1 (Forall_forall _ _) (decimal_chars _ _ D) _ I) as [H|H]; contradiction. Qed.
Lemma optional_char c s z : (0 < z /\ decimal_of s z) \/ (z <= 0 /\ s = []) -> c <> 45 -> ~ 48 <= c <= 57 -> ~ In c s.
Proof. intros [(_ & D)|(_ & ->)]; [apply (no_char c s z D) | intros _ _ []]. Qed.
Ltac flat E := cbn [app] in *; repeat (rewrite <- app_assoc; cbn [app]); repeat (rewrite <- app_assoc in E; cbn [app] in E); exact E.
Lemma printed_inj s i a b x y c l k i' a' b' x' y' c' l' k' : printed s i a b x y c l k -> printed s i' a' b' x' y' c' l' k' ->
  i = i' /\ a = a' /\ b = b' /\ x = x' /\ y = y' /\ Z.max c 0 = Z.max c' 0 /\ l = l' /\ k = k'.
Proof.
  intros [(si & sa & sb & sy & sc & sl & sk & E & Di & Da & Db & Dy & Dl & Dk & Dc)] [(si' & sa' & sb' & sy' & sc' & sl' & sk' & E' & Di' & Da' & Db' & Dy' & Dl' & Dk' & Dc')].
  rewrite E in E'. clear E. unfold lit in E'. cbn in E'. injection E' as E.
  apply split_left in E as (-> & E); [|eapply no_char; eauto; lia..].
  apply split_left in E as (-> & E); [|eapply no_char; eauto; lia..].
  apply split_left in E as (-> & E); [|eapply no_char; eauto; lia..]. injection E as E.
  assert (E2 : ((x ++ [39; 44; 60] ++ sy ++ [62] ++ sc ++ [44] ++ sl) ++ 58 :: sk) ++ [93] = ((x' ++ [39; 44; 60] ++ sy' ++ [62] ++ sc' ++ [44] ++ sl') ++ 58 :: sk') ++ [93]) by (flat E).
  clear E. apply app_inj_tail in E2 as (E2 & _).
  apply split_right in E2 as (-> & E2); [|eapply no_char; eauto; lia..].
  assert (E3 : (x ++ [39; 44; 60] ++ sy ++ [62] ++ sc) ++ 44 :: sl = (x' ++ [39; 44; 60] ++ sy' ++ [62] ++ sc') ++ 44 :: sl') by (flat E2).
  clear E2. apply split_right in E3 as (-> & E3); [|eapply no_char; eauto; lia..].
  assert (E4 : (x ++ [39; 44; 60] ++ sy) ++ 62 :: sc = (x' ++ [39; 44; 60] ++ sy') ++ 62 :: sc') by (flat E3).
  clear E3. apply split_right in E4 as (-> & E4); [|eapply optional_char; eauto; lia..].
  assert (E5 : ((x ++ [39]) ++ [44]) ++ 60 :: sy = ((x' ++ [39]) ++ [44]) ++ 60 :: sy') by (flat E4).
  clear E4. apply split_right in E5 as (-> & E5); [|eapply no_char; eauto; lia..].
  apply app_inj_tail in E5 as (E5 & _). apply app_inj_tail in E5 as (-> & _).
  rewrite (decimal_once _ _ _ Di Di'), (decimal_once _ _ _ Da Da'), (decimal_once _ _ _ Db Db'), (decimal_once _ _ _ Dy Dy'), (decimal_once _ _ _ Dl Dl'), (decimal_once _ _ _ Dk Dk').
  assert (Ec : Z.max c 0 = Z.max c' 0).
  { destruct Dc as [(P & Dc)|(P & ->)], Dc' as [(P' & Dc')|(P' & Ec')]; [rewrite (decimal_once _ _ _ Dc Dc'); reflexivity | subst sc' | | lia].
    - destruct Dc as [(_ & (_ & N & _) & _)|(_ & u & Eu & _)]; [contradiction | discriminate].
    - destruct Dc' as [(_ & (_ & N & _) & _)|(_ & u & Eu & _)]; [contradiction | discriminate]. }
  auto 10.
Qed.
Lemma quiet_escape s c : In c (escape_whitespaces s false) -> c <> 9 /\ c <> 10 /\ c <> 13.
Proof.
  rewrite escape_concat. intros I. apply in_concat in I as (p & Ip & Ic). apply in_map_iff in Ip as (d & <- & _). unfold escape_char in Ic. rewrite andb_false_r in Ic.
  destruct (Z.eqb_spec d 9); [cbn in Ic; lia|]. destruct (Z.eqb_spec d 10); [cbn in Ic; lia|]. destruct (Z.eqb_spec d 13); [cbn in Ic; lia|]. destruct Ic as [<-|[]]. auto.
Qed.
Lemma printed_one_line s i a b x y c l k : printed s i a b x y c l k -> (forall d, In d x -> d <> 9 /\ d <> 10 /\ d <> 13) -> forall d, In d s -> d <> 9 /\ d <> 10 /\ d <> 13.
Proof.
  intros [(si & sa & sb & sy & sc & sl & sk & -> & Di & Da & Db & Dy & Dl & Dk & Dc)] X d I.
  assert (N : forall u z, decimal_of u z -> In d u -> d <> 9 /\ d <> 10 /\ d <> 13).
  { intros u z D Iu. pose proof (proj1 (Forall_forall _ _) (decimal_chars _ _ D) _ Iu). cbn in *. lia. }
  unfold lit in I. cbn in I. repeat (rewrite in_app_iff in I; cbn in I).
  assert (C : In d sc -> d <> 9 /\ d <> 10 /\ d <> 13) by (intros Ic; destruct Dc as [(_ & Dc)|(_ & ->)]; [eapply N; eauto | destruct Ic]).
  repeat match type of I with _ \/ _ => destruct I as [I|I] end; try lia; first [exact (N _ _ Di I) | exact (N _ _ Da I) | exact (N _ _ Db I) | exact (N _ _ Dy I) | exact (N _ _ Dl I) | exact (N _ _ Dk I) | exact (C I) | exact (X _ I)].
Qed.
