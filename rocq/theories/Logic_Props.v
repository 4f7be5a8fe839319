(** C83: logic with missing values. *)
From Verif Require Import Base Logic_Model Logic_Spec.

(** The result of and, or, not is b exactly if it would be b whatever the missing inputs were, and
    missing exactly if it depends on them. *)
Theorem C83_and l r b :
  (sem (logical_and l r) = Some b <-> forall x y, completes l x -> completes r y -> andb x y = b) /\
  (sem (logical_and l r) = None <->
   exists x y x' y', completes l x /\ completes r y /\ completes l x' /\ completes r y' /\ andb x y <> andb x' y').
Proof.
  destruct l as [[] []], r as [[] []], b; cbn; unfold completes, sem; cbn; split; split; intros H; try discriminate; try reflexivity;
  try (intros [] [] [X|X] [Y|Y]; cbn; congruence);
  try (exfalso; specialize (H true true); cbn in H; intuition congruence);
  try (exfalso; pose proof (H true true) as H1; pose proof (H false true) as H2; pose proof (H true false) as H3; pose proof (H false false) as H4; cbn in *; intuition congruence);
  try (destruct H as (x & y & x' & y' & [A|A] & [B|B] & [C|C] & [D|D] & N); cbn in *; try congruence; destruct x, y, x', y'; cbn in *; congruence);
  try (exists true, true, true, false; cbn; intuition congruence);
  try (exists true, true, false, true; cbn; intuition congruence).
Qed.
Print Assumptions C83_and.
Theorem C83_or l r b :
  (sem (logical_or l r) = Some b <-> forall x y, completes l x -> completes r y -> orb x y = b) /\
  (sem (logical_or l r) = None <->
   exists x y x' y', completes l x /\ completes r y /\ completes l x' /\ completes r y' /\ orb x y <> orb x' y').
Proof.
  destruct l as [[] []], r as [[] []], b; cbn; unfold completes, sem; cbn; split; split; intros H; try discriminate; try reflexivity;
  try (intros [] [] [X|X] [Y|Y]; cbn; congruence);
  try (exfalso; pose proof (H true true) as H1; pose proof (H false true) as H2; pose proof (H true false) as H3; pose proof (H false false) as H4; cbn in *; intuition congruence);
  try (destruct H as (x & y & x' & y' & [A|A] & [B|B] & [C|C] & [D|D] & N); cbn in *; try congruence; destruct x, y, x', y'; cbn in *; congruence);
  try (exists false, true, false, false; cbn; intuition congruence);
  try (exists true, false, false, false; cbn; intuition congruence).
Qed.
Print Assumptions C83_or.
(** Negation exchanges and and or, and negating twice gives the input. *)
Theorem C83_not l r :
  sem (logical_not (logical_and l r)) = sem (logical_or (logical_not l) (logical_not r)) /\
  sem (logical_not (logical_or l r)) = sem (logical_and (logical_not l) (logical_not r)) /\
  sem (logical_not (logical_not l)) = sem l /\
  (forall b, sem (logical_not l) = Some b <-> sem l = Some (negb b)).
Proof. destruct l as [[] []], r as [[] []]; cbn; repeat split; try (destruct b; cbn; congruence). Qed.
Print Assumptions C83_not.
(** logical_if returns the second, third or fourth input for true, false and missing. *)
Theorem C83_if T c (t f m : opt T) :
  (sem c = Some true -> logical_if T c t f m = t) /\ (sem c = Some false -> logical_if T c t f m = f) /\
  (sem c = None -> logical_if T c t f m = m).
Proof. destruct c as [[] []]; cbn; repeat split; congruence. Qed.
Print Assumptions C83_if.
(** Presence operators: the first present value, where the masks allow it; the same for optional and
    full inputs, and a full result exactly if one input is always there. *)
Theorem C83_presence T dflt (a c : opt T) (v w : T) (b : bool) :
  sem (presence_or T a c) = first_of [sem a; sem c] /\
  Some (presence_or_full T a v) = first_of [sem a; Some v] /\
  sem (presence_and T dflt a b) = masked (sem a) b /\
  sem (presence_and_full T dflt v b) = masked (Some v) b /\
  first_of [masked (Some (sem a)) b; Some (sem c)] = Some (sem (where_op T b a c)) /\
  sem (and_or T a b c) = first_of [masked (sem a) b; sem c] /\
  Some (and_or_full_c T a b v) = first_of [masked (sem a) b; Some v] /\
  sem (and_or_full_a T v b c) = first_of [masked (Some v) b; sem c] /\
  Some (and_or_full T v b w) = first_of [masked (Some v) b; Some w] /\
  (has T a = true <-> sem a <> None) /\ (presence_not T a = true <-> sem a = None).
Proof. destruct a as [[] x], c as [[] y], b; cbn; repeat split; try congruence; auto. Qed.
Print Assumptions C83_presence.
(** presence_and_or is presence_or after presence_and. *)
Theorem C83_fuse T dflt (a c : opt T) b : sem (and_or T a b c) = sem (presence_or T (presence_and T dflt a b) c).
Proof. destruct a as [[] x], b; reflexivity. Qed.
Print Assumptions C83_fuse.

Example ex_and : sem (logical_and (mk false true) (mk true false)) = Some false. Proof. reflexivity. Qed.
Example ex_and_missing : sem (logical_and (mk false false) (mk true true)) = None. Proof. reflexivity. Qed.
Example ex_or : sem (logical_or (mk true true) (mk false false)) = Some true. Proof. reflexivity. Qed.
