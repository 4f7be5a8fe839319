(** What casting means. *)
From Coq Require Import ZArith Floats.SpecFloat.
From Verif Require Import Cast_Model.
Local Open Scope Z_scope.

(** The numbers that the types can represent. *)
Definition float_types (f : fty) : Prop := f = float32 \/ f = float64.
Definition int_types (t : ity) : Prop := t = int32 \/ t = int64 \/ t = uint64.
Definition representable (t : ity) (z : Z) : Prop :=
  if i_signed t then - 2 ^ i_digits t <= z < 2 ^ i_digits t else 0 <= z < 2 ^ i_digits t.

(** a is the integral part of m * 2^e. *)
Definition whole (m e a : Z) : Prop :=
  (0 <= e -> a = m * 2 ^ e) /\ (e < 0 -> a * 2 ^ (- e) <= m < (a + 1) * 2 ^ (- e)).
(** z is the float x without its fraction. *)
Definition integral_part (x : spec_float) (z : Z) : Prop :=
  match x with
  | S754_zero _ => z = 0
  | S754_finite s m e => exists a, whole (Zpos m) e a /\ z = if s then - a else a
  | _ => False
  end.
(** x is less than zero *)
Definition below_zero (x : spec_float) : Prop := match x with S754_finite true _ _ => True | _ => False end.
(** x is neither infinite nor NaN *)
Definition finite (x : spec_float) : Prop := match x with S754_zero _ | S754_finite _ _ _ => True | _ => False end.
