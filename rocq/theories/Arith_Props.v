(** C51: integer arithmetic operators. *)
From Coq Require Import ZArith Lia List Bool.
From Verif Require Import Base Arith_Model Arith_Spec Arith_Proofs.
Import ListNotations.
Local Open Scope Z_scope.

(** The wrapped result is determined by the exact one, and equals it whenever that is a value of the type. *)
Theorem C51_wraps : forall w x r, 1 < w -> wraps w x r ->
  (forall s, wraps w x s -> s = r) /\ (of_type w x -> r = x).
Proof. intros w x r W H. split; [intros s S; eapply wraps_unique; eauto | intros F; eapply wraps_unique; [| exact H |]; [lia | now apply wraps_fit]]. Qed.
Print Assumptions C51_wraps.

(** Sums of any number of arguments, differences, products, negation. *)
Theorem C51_ring : forall w a b l, 1 < w ->
  wraps w (fold_left Z.add l a) (add_op w a l) /\ wraps w (a - b) (subtract_op w a b) /\
  wraps w (a * b) (multiply_op w a b) /\ wraps w (- a) (neg_op w a).
Proof. intros. split; [now apply add_ok | split; [now apply subtract_ok | split; [now apply multiply_ok | now apply neg_ok]]]. Qed.
Print Assumptions C51_ring.
Example C51_ring_ex : add_op 32 (2 ^ 31 - 1) [1; 5] = - 2 ^ 31 + 5 /\ subtract_op 64 (- 2 ^ 63) 1 = 2 ^ 63 - 1 /\
  multiply_op 32 65536 65537 = 65536 /\ neg_op 32 (- 2 ^ 31) = - 2 ^ 31 /\ add_op 32 3 [-5] = -2.
Proof. vm_compute. repeat split. Qed.

(** math.abs: defined on every value; the only one whose absolute value is not a value of the type is the least. *)
Theorem C51_abs : forall w a, 1 < w -> of_type w a -> exists r, abs_op w a = Some r /\ wraps w (Z.abs a) r /\
  (a <> - 2 ^ (w - 1) -> r = Z.abs a).
Proof.
  intros w a W H. destruct (abs_ok w W a H) as (r & E & R). exists r. split; [exact E | split; [exact R |]].
  intros N. eapply wraps_unique; [exact W | exact R |]. apply wraps_fit. unfold of_type in *. lia.
Qed.
Print Assumptions C51_abs.
Example C51_abs_ex : abs_op 32 (-7) = Some 7 /\ abs_op 32 (- 2 ^ 31) = Some (- 2 ^ 31).
Proof. vm_compute. auto. Qed.

(** Division by zero is an error, nothing else is, and no operand leads to undefined behaviour. *)
Theorem C51_zero : forall w a b, 1 < w -> of_type w a -> of_type w b ->
  (floordiv_op w a b = Some (inl tt) <-> b = 0) /\ (mod_op w a b = Some (inl tt) <-> b = 0) /\
  floordiv_op w a b <> None /\ mod_op w a b <> None.
Proof.
  intros w a b W A B. destruct (Z.eq_dec b 0) as [-> | N].
  - unfold floordiv_op, mod_op. cbn. repeat split; intros; congruence.
  - destruct (divmod_ok w W a b A B N) as (q & r & d & m & E1 & E2 & _). rewrite E1, E2. repeat split; intros; congruence.
Qed.
Print Assumptions C51_zero.

(** Floor division and modulo: for the only q and r with a = q * b + r and r between 0 and b, excluding b,
    math.mod is r and math.floordiv is q, up to wrapping, which happens for the least value divided by -1 only. *)
Theorem C51_divmod : forall w a b, 1 < w -> of_type w a -> of_type w b -> b <> 0 ->
  exists d m, floordiv_op w a b = Some (inr d) /\ mod_op w a b = Some (inr m) /\
    forall q r, floor_quotient a b q r -> m = r /\ wraps w q d /\ (~ (a = - 2 ^ (w - 1) /\ b = -1) -> d = q).
Proof.
  intros w a b W A B N. destruct (divmod_ok w W a b A B N) as (q & r & d & m & E1 & E2 & FQ & D & M).
  exists d, m. split; [exact E1 | split; [exact E2 |]]. intros q' r' FQ'.
  destruct (floor_unique a b q r q' r' FQ FQ') as [<- <-]. split; [exact M | split; [exact D |]].
  intros NO. eapply wraps_unique; [exact W | exact D |]. apply wraps_fit. pose proof (half_pos w W) as HP.
  destruct FQ as [E H]. unfold of_type in *. clear - A B N NO E H HP.
  destruct (Z.eq_dec b (-1)) as [-> | N1]; [lia |]. destruct (Z.eq_dec b 1) as [-> | N2]; [lia |].
  assert (2 <= Z.abs b) by lia. nia.
Qed.
Print Assumptions C51_divmod.
Example C51_divmod_ex : floordiv_op 32 (-7) 2 = Some (inr (-4)) /\ mod_op 32 (-7) 2 = Some (inr 1) /\
  floordiv_op 32 7 (-2) = Some (inr (-4)) /\ mod_op 32 7 (-2) = Some (inr (-1)) /\
  floordiv_op 64 (- 2 ^ 63) (-1) = Some (inr (- 2 ^ 63)) /\ mod_op 64 (- 2 ^ 63) (-1) = Some (inr 0) /\
  floordiv_op 32 1 0 = Some (inl tt) /\ floor_quotient (-7) 2 (-4) 1.
Proof. vm_compute. repeat split; auto; try discriminate. left. split; [discriminate | reflexivity]. Qed.

(** The documented identity x = FloorDiv(x, y) * y + Mod(x, y), computed with the operators themselves, without exception. *)
Theorem C51_identity : forall w a b d m, 1 < w -> of_type w a -> of_type w b ->
  floordiv_op w a b = Some (inr d) -> mod_op w a b = Some (inr m) -> add_op w (multiply_op w d b) [m] = a.
Proof.
  intros w a b d m W A B D M. destruct (Z.eq_dec b 0) as [-> | N]; [discriminate |].
  destruct (divmod_ok w W a b A B N) as (q & r & d' & m' & E1 & E2 & [FQ _] & [_ [k K]] & M'). assert (d' = d) by congruence. assert (m' = m) by congruence. subst.
  eapply wraps_unique; [exact W | apply (add_ok w W) |]. cbn.
  destruct (multiply_ok w W d b) as [_ [j J]]. split; [exact A |]. exists (- j - k * b). nia.
Qed.
Print Assumptions C51_identity.

(** math.sign, math.maximum and math.minimum on integers. *)
Theorem C51_order : forall a b, sign_op a = Z.sgn a /\
  (a <= max_op a b /\ b <= max_op a b /\ (max_op a b = a \/ max_op a b = b)) /\
  (min_op a b <= a /\ min_op a b <= b /\ (min_op a b = a \/ min_op a b = b)).
Proof.
  intros. unfold sign_op, max_op, min_op. split; [destruct a; reflexivity |].
  destruct (Z.leb_spec b a), (Z.leb_spec a b); repeat split; lia.
Qed.
Print Assumptions C51_order.
