(** Model of seq.range and seq.repeat, arolla/qexpr/operators/seq/sequence_operators.h, and of
    MutableSequence::Make, arolla/sequence/mutable_sequence.cc.  [None]: undefined behaviour
    (overflow of a signed addition).  A sequence is the list of its values. *)
From Coq Require Import ZArith.
From Verif Require Import Base.
Local Open Scope Z_scope.

Definition two63 : Z := 9223372036854775808.
Definition two64 : Z := 18446744073709551616.
Definition int64 (x : Z) : bool := (- two63 <=? x) && (x <? two63).
(** static_cast<uint64_t>, and arithmetic of uint64_t *)
Definition u64 (x : Z) : Z := x mod two64.
Definition add64 (a b : Z) : option Z := if int64 (a + b) then Some (a + b) else None.

Inductive rerr := EStep | ETooLarge | EAlloc.
Section Range.
(** Whether AlignedAlloc of so many bytes succeeds *)
Variable alloc : Z -> bool.
(** mutable_sequence.cc:33-65 [MutableSequence::Make], for elements of [esize] bytes *)
Definition make_seq (esize size : Z) : rerr + unit :=
  if size <=? 0 then inr tt else
  if two64 <=? esize * size then inl ETooLarge else
  if alloc (esize * size) then inr tt else inl EAlloc.

(** sequence_operators.h:53-67 *)
Definition range_size (start stop step : Z) : Z :=
  if 0 <? step then
    if start <? stop then u64 (u64 (u64 (u64 stop - u64 start) + u64 step) - 1) / u64 step else 0
  else
    if stop <? start then
      u64 (u64 (u64 (u64 (- u64 stop) - u64 (- u64 start)) + u64 (- u64 step)) - 1) / u64 (- u64 step)
    else 0.
(** 73-77 *)
Fixpoint fill (n : nat) (y step : Z) : option (list Z) :=
  match n with
  | O => Some []
  | S m => let? y' := add64 y step in
           let? r := fill m y' step in Some (y :: r)
  end.
(** 48-79 [MakeRange] *)
Definition make_range (start stop step : Z) : option (rerr + list Z) :=
  if step =? 0 then Some (inl EStep) else
  let size := range_size start stop step in
  if size =? 0 then Some (inr []) else
  match make_seq 8 size with
  | inl e => Some (inl e)
  | inr _ => let? l := fill (Z.to_nat size) start step in Some (inr l)
  end.
(** 108-121, the operator *)
Definition range_op (arg1 : Z) (arg2 : option Z) (step : Z) : option (rerr + list Z) :=
  match arg2 with
  | Some stop => make_range arg1 stop step
  | None => make_range 0 arg1 step
  end.

(** 153-162, seq.repeat *)
Definition repeat_op {A} (esize : Z) (v : A) (n : Z) : rerr + list A :=
  let n := Z.max n 0 in
  match make_seq esize n with
  | inl e => inl e
  | inr _ => inr (repeat v (Z.to_nat n))
  end.
End Range.
