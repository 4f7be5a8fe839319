(** C23: overflow-checked arithmetic. *)
From Verif Require Import Base Overflow_Model Overflow_Spec Overflow_Proofs.
Local Open Scope Z_scope.

(** SafeAdd, SafeMul and SafeAbs return the exact result when it is in the range
    of the result type, whatever the types of the operands, and an error otherwise. *)
Theorem C23_safe_add_mul : forall t x y,
  (ilo t <= x + y <= ihi t -> SafeAdd t x y = inr (x + y)) /\
  (~ (ilo t <= x + y <= ihi t) -> SafeAdd t x y = inl tt) /\
  (ilo t <= x * y <= ihi t -> SafeMul t x y = inr (x * y)) /\
  (~ (ilo t <= x * y <= ihi t) -> SafeMul t x y = inl tt).
Proof.
  intros t x y. destruct (safe_results t x y) as [A B]. rewrite A, B, <- !fits_iff.
  repeat split; intros H; try (rewrite H; reflexivity);
    [destruct (fits t (x + y))|destruct (fits t (x * y))]; congruence.
Qed.
Print Assumptions C23_safe_add_mul.

(** [src] is the argument type; unsigned types have [ilo src = 0]. *)
Theorem C23_safe_abs : forall src t x, ilo src <= x <= ihi src ->
  (ilo t <= Z.abs x <= ihi t -> SafeAbs src t x = inr (Z.abs x)) /\
  (~ (ilo t <= Z.abs x <= ihi t) -> SafeAbs src t x = inl tt).
Proof.
  intros src t x H. rewrite safe_abs_result, <- fits_iff by apply H.
  split; intros F; [rewrite F; reflexivity|destruct (fits t (Z.abs x)); congruence].
Qed.
Print Assumptions C23_safe_abs.

(** A whole formula evaluated with one flag, for every formula and every mix of
    types: the flag stays clear iff every intermediate value is in range, and the
    result is then exact.  An overflow is never lost by later operations. *)
Theorem C23_formula : forall f ov, typed f -> let '(r, o) := eval f ov in
  (o = false <-> ov = false /\ in_range_everywhere f) /\ (o = false -> r = exact f).
Proof. intros f ov H. exact (eval_ok f H ov). Qed.
Print Assumptions C23_formula.
(** The flag is sticky even outside the ranges of the operands. *)
Theorem C23_sticky : forall f ov, snd (eval f ov) = false -> ov = false.
Proof. exact eval_sticky. Qed.
Print Assumptions C23_sticky.

(** SafeAbs within a two's complement type fails exactly on the smallest value. *)
Theorem C23_abs_min : forall n x, 0 < n -> let t := mkI (- n) (n - 1) in - n <= x <= n - 1 ->
  (SafeAbs t t x = inl tt <-> x = - n).
Proof.
  intros n x Hn t Hx. assert (Hs : ilo t <= x <= ihi t) by exact Hx.
  destruct (C23_safe_abs t t x Hs) as [A B]. unfold t at 1 2 in A. unfold t at 1 2 in B. cbn [ilo ihi] in A, B.
  split.
  - intros E. destruct (Z.eq_dec x (- n)); [assumption|]. rewrite A in E by lia. discriminate.
  - intros ->. apply B. lia.
Qed.
Print Assumptions C23_abs_min.

Example C23_ex : SafeMul int64 (2 ^ 32) (2 ^ 30) = inr (2 ^ 62) /\ SafeMul int64 (2 ^ 32) (2 ^ 31) = inl tt /\
  SafeAdd int32 (2 ^ 31 - 1) 1 = inl tt /\ SafeAdd int64 (2 ^ 31 - 1) 1 = inr (2 ^ 31) /\
  SafeAbs int64 int64 (- 2 ^ 63) = inl tt /\ SafeAbs int64 uint64 (- 2 ^ 63) = inr (2 ^ 63).
Proof. repeat split; reflexivity. Qed.
(** The product overflows, the sum would bring it back into range: still reported. *)
Example C23_ex_chain : eval (Add int64 (Mul int64 (Num (2 ^ 32)) (Num (2 ^ 31))) (Num (-1))) false = (2 ^ 63 - 1, true).
Proof. reflexivity. Qed.
Example C23_hyp : typed (Abs int64 int64 (Add int64 (Num 3) (Num (-5)))) /\
  in_range_everywhere (Abs int64 int64 (Add int64 (Num 3) (Num (-5)))) /\
  eval (Abs int64 int64 (Add int64 (Num 3) (Num (-5)))) false = (2, false).
Proof. cbn. repeat split; reflexivity || (intros K; discriminate K) || lia. Qed.
