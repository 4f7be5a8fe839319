(** Model of arolla/qexpr/operators/core/cast_operator.h: [CastOp].
    Instantiated for the targets int32_t, int64_t, uint64_t, float, double
    (core/BUILD:242-298; not bool).  Floats are the IEEE formats of
    Coq.Floats.SpecFloat, rounding to nearest even.  static_cast of a float to an
    integer type that cannot represent its integral part is undefined: [None].
    [inl tt] is the InvalidArgumentError "cannot cast ...". *)
From Coq Require Import Floats.SpecFloat.
From Verif Require Import Base.
Local Open Scope Z_scope.

(** numeric_limits<T>: is_signed and digits *)
Record ity := mkI { i_signed : bool; i_digits : Z }.
Definition int32 := mkI true 31.
Definition int64 := mkI true 63.
Definition uint64 := mkI false 64.
Definition i_min (t : ity) : Z := if i_signed t then - 2 ^ i_digits t else 0.
Definition i_max (t : ity) : Z := 2 ^ i_digits t - 1.

(** A floating point type: numeric_limits<T>::digits and max_exponent *)
Record fty := mkF { f_prec : Z; f_emax : Z }.
Definition float32 := mkF 24 128.
Definition float64 := mkF 53 1024.

(** static_cast<DST>(z) of an integer to a float (also integer literals in float expressions), an integer to an integer
    (the value modulo 2^N), a float to an integer, a float to a float *)
Definition int_to_float (f : fty) (z : Z) : spec_float := binary_normalize (f_prec f) (f_emax f) z 0 false.
Definition int_to_int (t : ity) (z : Z) : Z := i_min t + (z - i_min t) mod (i_max t - i_min t + 1).
Definition float_to_int (t : ity) (x : spec_float) : option Z :=
  match x with
  | S754_zero _ => Some 0
  | S754_finite s m e =>
    let a := if 0 <=? e then Zpos m * 2 ^ e else Zpos m / 2 ^ (- e) in
    let z := if s then - a else a in
    if (i_min t <=? z) && (z <=? i_max t) then Some z else None
  | _ => None
  end.
Definition float_to_float (f : fty) (x : spec_float) : spec_float :=
  match x with
  | S754_finite s m e => binary_normalize (f_prec f) (f_emax f) (if s then Zneg m else Zpos m) e s
  | _ => x
  end.

Fixpoint loop (n : nat) (body : spec_float -> spec_float) (x : spec_float) : spec_float :=
  match n with O => x | S k => loop k body (body x) end.
Section F.
Variables (f : fty) (t : ity).
Definition mul2 (x : spec_float) : spec_float := SFmul (f_prec f) (f_emax f) x (int_to_float f 2).
Definition div2 (x : spec_float) : spec_float := SFdiv (f_prec f) (f_emax f) x (int_to_float f 2).
Definition add1 (x : spec_float) : spec_float := SFadd (f_prec f) (f_emax f) x (int_to_float f 1).
(** 49-68 [max_float_to_int_safe_value]: i counts to src digits, then up or down to dst digits *)
Definition max_safe : spec_float :=
  let r := loop (Z.to_nat (f_prec f)) (fun x => add1 (mul2 x)) (int_to_float f 0) in
  let r := loop (Z.to_nat (i_digits t - f_prec f)) mul2 r in
  loop (Z.to_nat (f_prec f - i_digits t)) div2 r.
(** 76-99 [min_float_to_int_safe_value] *)
Definition min_safe : spec_float :=
  if negb (i_signed t) then int_to_float f 0 else
  let r := loop (Z.to_nat (f_prec f)) mul2 (int_to_float f 1) in
  let r := loop (Z.to_nat (i_digits t - f_prec f)) mul2 r in
  SFopp (loop (Z.to_nat (f_prec f - i_digits t)) (fun x => div2 (add1 x)) r).
(** 130-135, 151-171: float to integer *)
Definition cast_float_to_int (x : spec_float) : option (unit + Z) :=
  if SFleb min_safe x && SFleb x max_safe
  then let? z := float_to_int t x in Some (inr z)
  else Some (inl tt).
End F.

Definition ity_eqb (a b : ity) : bool := Bool.eqb (i_signed a) (i_signed b) && (i_digits a =? i_digits b).
(** 104-129 [safe_range] for integer types, 151-171 *)
Definition cast_int_to_int (src dst : ity) (x : Z) : unit + Z :=
  if ity_eqb src dst then inr x else
  let safe_min := Z.max (i_min dst) (i_min src) in
  let safe_max := Z.min (i_max dst) (i_max src) in
  if (safe_min <=? i_min src) && (i_max src <=? safe_max) then inr (int_to_int dst x)
  else if (safe_min <=? x) && (x <=? safe_max) then inr (int_to_int dst x) else inl tt.
(** 136-150, 151-158: to floats, without checks *)
Definition cast_int_to_float (f : fty) (x : Z) : spec_float := int_to_float f x.
Definition cast_float_to_float (f : fty) (x : spec_float) : spec_float := float_to_float f x.
