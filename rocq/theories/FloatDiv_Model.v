(** Model of arolla/qexpr/operators/math/arithmetic.h: [FloorDivOp] and [ModOp] for float and double.
    IEEE arithmetic of Coq.Floats.SpecFloat, rounding to nearest even; the expression [lhs - std::floor(div) * rhs]
    is taken to round twice (no contraction to a fused operation).  [inl tt] is the InvalidArgumentError. *)
From Coq Require Import ZArith Floats.SpecFloat.
From Verif Require Import Base Cast_Model.
Local Open Scope Z_scope.

(** std::floor, std::signbit, std::isfinite, std::copysign *)
Definition ffloor (f : fty) (x : spec_float) : spec_float :=
  match x with
  | S754_finite s m e =>
    if 0 <=? e then x
    else binary_normalize (f_prec f) (f_emax f) ((if s then Zneg m else Zpos m) / 2 ^ (- e)) 0 s
  | _ => x
  end.
Definition signbit (x : spec_float) : bool :=
  match x with S754_zero s | S754_infinity s | S754_finite s _ _ => s | S754_nan => false end.
Definition isfinite (x : spec_float) : bool := match x with S754_zero _ | S754_finite _ _ _ => true | _ => false end.
Definition copysign (x y : spec_float) : spec_float :=
  match x with
  | S754_zero _ => S754_zero (signbit y)
  | S754_infinity _ => S754_infinity (signbit y)
  | S754_finite _ m e => S754_finite (signbit y) m e
  | S754_nan => S754_nan
  end.

Section F.
Variable f : fty.
Notation zero := (S754_zero false).
Notation nonzero x := (negb (SFeqb x zero)).
(** 91-94, 111-121 *)
Definition floordiv_f (lhs rhs : spec_float) : unit + spec_float :=
  if SFeqb rhs zero then inl tt else
  let div := SFdiv (f_prec f) (f_emax f) lhs rhs in
  if nonzero div then if isfinite div then inr (ffloor f div) else inr S754_nan
  else inr (if nonzero lhs && signbit div then int_to_float f (-1) else div).
(** 131-134, 147-163 *)
Definition mod_f (lhs rhs : spec_float) : unit + spec_float :=
  if SFeqb rhs zero then inl tt else
  let div := SFdiv (f_prec f) (f_emax f) lhs rhs in
  if isfinite div then
    let ret := if nonzero div
               then SFsub (f_prec f) (f_emax f) lhs (SFmul (f_prec f) (f_emax f) (ffloor f div) rhs)
               else if SFeqb lhs zero || Bool.eqb (SFltb zero lhs) (SFltb zero rhs) then lhs else S754_infinity false in
    inr (copysign ret rhs)
  else inr S754_nan.
End F.
