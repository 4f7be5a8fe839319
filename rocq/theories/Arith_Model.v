(** Model of the integer cases of arolla/qexpr/operators/math/arithmetic.h.
    The operators are registered for int32_t and int64_t (math/BUILD:165-345,
    register_operator.bzl:24-26), so T is the two's complement type of width w
    (32 or 64) and UT its unsigned counterpart; neither is promoted.  Signed
    overflow and division by zero are undefined behaviour: [None].
    [inl tt] is the InvalidArgumentError "division by zero". *)
From Verif Require Import Base.
Local Open Scope Z_scope.

Section W.
Variable w : Z.

(** numeric_limits<T>::min() and max() *)
Definition tmin : Z := - 2 ^ (w - 1).
Definition tmax : Z := 2 ^ (w - 1) - 1.
(** static_cast<UT>(x), and static_cast<T>(x) of an unsigned value *)
Definition to_ut (x : Z) : Z := x mod 2 ^ w.
Definition to_t (x : Z) : Z := if x <=? tmax then x else x - 2 ^ w.
(** [+], [-], [*] and unary [-] on UT *)
Definition uadd (a b : Z) : Z := (a + b) mod 2 ^ w.
Definition usub (a b : Z) : Z := (a - b) mod 2 ^ w.
Definition umul (a b : Z) : Z := (a * b) mod 2 ^ w.
Definition uneg (a : Z) : Z := (- a) mod 2 ^ w.
(** [/] and [%] on T: truncating, undefined if the quotient is not in T *)
Definition sdiv (a b : Z) : option Z := if b =? 0 then None else if (a =? tmin) && (b =? -1) then None else Some (Z.quot a b).
Definition srem (a b : Z) : option Z := if b =? 0 then None else if (a =? tmin) && (b =? -1) then None else Some (Z.rem a b).
(** std::abs *)
Definition cabs (a : Z) : option Z := if a =? tmin then None else Some (Z.abs a).

(** 41-55 [AddOp], any positive number of arguments; a left fold on UT *)
Definition add_op (arg1 : Z) (args : list Z) : Z := to_t (fold_left (fun s x => uadd s (to_ut x)) args (to_ut arg1)).
(** 57-70 [SubtractOp] *)
Definition subtract_op (lhs rhs : Z) : Z := to_t (usub (to_ut lhs) (to_ut rhs)).
(** 72-85 [MultiplyOp] *)
Definition multiply_op (lhs rhs : Z) : Z := to_t (umul (to_ut lhs) (to_ut rhs)).
(** 89-124 [FloorDivOp], signed integers (91-94, 99-109) *)
Definition floordiv_op (lhs rhs : Z) : option (unit + Z) :=
  if rhs =? 0 then Some (inl tt) else
  if 0 <=? Z.lxor lhs rhs
  then if negb (rhs =? -1) then let? q := sdiv lhs rhs in Some (inr q) else Some (inr (to_t (uneg (to_ut lhs))))
  else let? q := sdiv lhs rhs in let? r := srem lhs rhs in
       Some (inr (to_t (usub (to_ut q) (to_ut (if negb (r =? 0) then 1 else 0))))).
(** 128-166 [ModOp], signed integers (131-134, 139-145) *)
Definition mod_op (lhs rhs : Z) : option (unit + Z) :=
  if rhs =? 0 then Some (inl tt) else
  if 0 <=? Z.lxor lhs rhs
  then if negb (rhs =? -1) then let? r := srem lhs rhs in Some (inr r) else Some (inr 0)
  else let? r := srem lhs rhs in let? r' := srem (to_t (uadd (to_ut rhs) (to_ut r))) rhs in Some (inr r').
(** 204-217 [NegOp] *)
Definition neg_op (a : Z) : Z := to_t (uneg (to_ut a)).
(** 219-236 [AbsOp] *)
Definition abs_op (a : Z) : option Z := if a =? tmin then Some tmin else cabs a.
(** 30-39 [SignOp]; std::isnan of an integer is false *)
Definition sign_op (x : Z) : Z := (if 0 <? x then 1 else 0) - (if x <? 0 then 1 else 0).
(** 247-253 [MaxOp], 256-262 [MinOp] *)
Definition max_op (lhs rhs : Z) : Z := if rhs <=? lhs then lhs else rhs.
Definition min_op (lhs rhs : Z) : Z := if lhs <=? rhs then lhs else rhs.
End W.
