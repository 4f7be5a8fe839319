(** Model of arolla/util/overflow.h.
    A C++ integer type is its range [lo .. hi]; the compiler builtins
    __builtin_{add,sub,mul}_overflow compute in infinite precision, store the
    result reduced to the result type, and report whether it was changed (GCC
    manual, "Integer Overflow Builtins").  They are the trusted primitive. *)
From Verif Require Import Base.
Local Open Scope Z_scope.

Record ity := mkI { ilo : Z; ihi : Z }.
Definition int32 := mkI (- 2 ^ 31) (2 ^ 31 - 1).
Definition int64 := mkI (- 2 ^ 63) (2 ^ 63 - 1).
Definition uint64 := mkI 0 (2 ^ 64 - 1).

Definition fits (t : ity) (z : Z) : bool := (ilo t <=? z) && (z <=? ihi t).
Definition wrap (t : ity) (z : Z) : Z := ilo t + (z - ilo t) mod (ihi t - ilo t + 1).
(** The builtins: stored result and overflow report. *)
Definition builtin (t : ity) (exact : Z) : Z * bool := (wrap t exact, negb (fits t exact)).

(** overflow.h:41-46 [safe_add]; [ov] is *overflow before the call *)
Definition safe_add (t : ity) (x y : Z) (ov : bool) : Z * bool :=
  let '(r, o) := builtin t (x + y) in (r, ov || o).
(** overflow.h:49-54 [safe_mul] *)
Definition safe_mul (t : ity) (x y : Z) (ov : bool) : Z * bool :=
  let '(r, o) := builtin t (x * y) in (r, ov || o).
(** overflow.h:57-69 [safe_abs]; [src] is the type T of the argument *)
Definition safe_abs (src t : ity) (x : Z) (ov : bool) : Z * bool :=
  let '(r, o) := if ilo src <? 0
                 then if x <? 0 then builtin t (0 - x) else builtin t (x + 0)
                 else builtin t (x + 0) in
  (r, ov || o).

(** overflow.h:72-81 [SafeMul], 84-93 [SafeAdd], 96-105 [SafeAbs]; [inl tt] is
    InvalidArgumentError. *)
Definition SafeMul (t : ity) (x y : Z) : unit + Z :=
  let '(r, o) := safe_mul t x y false in if (o : bool) then inl tt else inr r.
Definition SafeAdd (t : ity) (x y : Z) : unit + Z :=
  let '(r, o) := safe_add t x y false in if (o : bool) then inl tt else inr r.
Definition SafeAbs (src t : ity) (x : Z) : unit + Z :=
  let '(r, o) := safe_abs src t x false in if (o : bool) then inl tt else inr r.
