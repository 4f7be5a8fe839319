(** Formulas over integers, their exact value, and their evaluation with one
    shared overflow flag as recommended in overflow.h:33-38
    ([safe_add(safe_mul(a, x, &overflow), b, &overflow)]). *)
From Verif Require Import Base Overflow_Model.
Local Open Scope Z_scope.

Inductive formula :=
  | Num (z : Z)
  | Add (t : ity) (a b : formula)
  | Mul (t : ity) (a b : formula)
  | Abs (src t : ity) (a : formula).

(** Infinite precision. *)
Fixpoint exact (f : formula) : Z :=
  match f with
  | Num z => z
  | Add _ a b => exact a + exact b
  | Mul _ a b => exact a * exact b
  | Abs _ _ a => Z.abs (exact a)
  end.
(** The argument of every Abs on an unsigned type is non-negative. *)
Fixpoint typed (f : formula) : Prop :=
  match f with
  | Num _ => True
  | Add _ a b | Mul _ a b => typed a /\ typed b
  | Abs src _ a => typed a /\ (ilo src <= exact a)
  end.
(** Every intermediate result is in the range of its type. *)
Fixpoint in_range_everywhere (f : formula) : Prop :=
  match f with
  | Num _ => True
  | Add t a b => in_range_everywhere a /\ in_range_everywhere b /\ ilo t <= exact a + exact b <= ihi t
  | Mul t a b => in_range_everywhere a /\ in_range_everywhere b /\ ilo t <= exact a * exact b <= ihi t
  | Abs _ t a => in_range_everywhere a /\ ilo t <= Z.abs (exact a) <= ihi t
  end.
(** The C++ evaluation, left operand first. *)
Fixpoint eval (f : formula) (ov : bool) : Z * bool :=
  match f with
  | Num z => (z, ov)
  | Add t a b => let '(x, o1) := eval a ov in let '(y, o2) := eval b o1 in safe_add t x y o2
  | Mul t a b => let '(x, o1) := eval a ov in let '(y, o2) := eval b o1 in safe_mul t x y o2
  | Abs src t a => let '(x, o1) := eval a ov in safe_abs src t x o1
  end.
