(** C26, C27: typos, identifiers, truncation. *)
From Verif Require Import Base Strings_Model Strings_Spec Strings_Proofs.
Local Open Scope Z_scope.

(** IsWithinOneTypo decides "at most one edit"; its reads stay inside the strings
    and its size_t subtractions do not wrap. *)
Theorem C26_one_typo : forall lhs rhs, exists b, is_within_one_typo lhs rhs = Some b /\ (b = true <-> within_one lhs rhs).
Proof.
  intros lhs rhs. destruct (typo_eval lhs rhs) as (b & E & H). exists b. split; [exact E|]. rewrite H.
  split; [apply typo_sound|apply typo_complete].
Qed.
Print Assumptions C26_one_typo.
Lemma one_edit_sym : forall a b, one_edit a b -> one_edit b a.
Proof. intros a b []; constructor. Qed.
(** Hence it is symmetric. *)
Theorem C26_symmetric : forall lhs rhs, is_within_one_typo lhs rhs = is_within_one_typo rhs lhs.
Proof.
  intros lhs rhs. destruct (C26_one_typo lhs rhs) as (b & -> & H), (C26_one_typo rhs lhs) as (b' & -> & H'). f_equal.
  assert (S : forall x y, within_one x y -> within_one y x) by (intros x y [->|K]; [left; reflexivity|right; apply one_edit_sym, K]).
  destruct b, b'; try reflexivity; [symmetry; apply H'|apply H]; apply S; [apply H|apply H']; reflexivity.
Qed.
Print Assumptions C26_symmetric.
Example C26_ex :
  is_within_one_typo [1; 2; 3; 4] [1; 3; 2; 4] = Some true /\ is_within_one_typo [1; 2; 3] [1; 2; 2; 3] = Some true /\
  is_within_one_typo [1; 2; 3; 4] [1; 3; 4; 2] = Some false /\ is_within_one_typo [] [1; 2] = Some false /\
  is_within_one_typo [1; 2; 1] [2; 1; 2] = Some false.
Proof. repeat split; reflexivity. Qed.

Theorem C27_identifier : forall s, is_identifier s = true <-> identifier s.
Proof. exact is_identifier_ok. Qed.
Print Assumptions C27_identifier.
Theorem C27_qualified : forall s, is_qualified s = true <-> qualified s.
Proof. intros s. exact (proj2 (qual_ok s)). Qed.
Print Assumptions C27_qualified.
(** "a1._b" is qualified, "a..b", ".a", "a." and "a.1" are not. *)
Example C27_qualified_ex : is_qualified [97; 49; 46; 95; 98] = true /\ is_qualified [97; 46; 46; 98] = false /\
  is_qualified [46; 97] = false /\ is_qualified [97; 46] = false /\ is_qualified [97; 46; 49] = false /\ is_qualified [] = false.
Proof. repeat split; reflexivity. Qed.
Theorem C27_starts_with : forall text prefix, starts_with text prefix = true <-> exists rest, text = prefix ++ rest.
Proof. exact starts_with_ok. Qed.
Print Assumptions C27_starts_with.
Theorem C27_join : forall delim parts, comma_loop true delim parts = join delim parts.
Proof. exact comma_loop_ok. Qed.
Print Assumptions C27_join.
(** For every limit of at least three. *)
Theorem C27_truncate : forall s n, (3 <= n)%nat -> exists r, truncate s n = Some r /\
  ((length s <= n)%nat -> r = s) /\
  ((n < length s)%nat -> length r = n /\ r = firstn (n - 3) s ++ [46; 46; 46]).
Proof. exact truncate_ok. Qed.
Print Assumptions C27_truncate.
(** ContainerAccessString: ".key" exactly for identifiers, "['...']" otherwise, for
    every escaping function. *)
Theorem C27_container_access : forall esc key,
  (identifier key -> container_access esc key = 46 :: key) /\
  (~ identifier key -> container_access esc key = [91; 39] ++ esc key ++ [39; 93]).
Proof.
  intros esc key. unfold container_access. rewrite <- is_identifier_ok.
  destruct (is_identifier key); split; intros H; reflexivity || congruence.
Qed.
Print Assumptions C27_container_access.
Example C27_truncate_ex : truncate [1; 2; 3; 4; 5] 4 = Some [1; 46; 46; 46] /\ truncate [1; 2; 3; 4] 4 = Some [1; 2; 3; 4] /\
  starts_with [1; 2; 3] [1; 2] = true /\ comma_loop true [44] [[1]; [2]; [3]] = [1; 44; 2; 44; 3].
Proof. repeat split; reflexivity. Qed.
