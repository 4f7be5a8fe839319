(** What range(start, stop, step) is. *)
From Coq Require Import ZArith.
From Verif Require Import Base.
Local Open Scope Z_scope.

(** [x] has not reached [stop]. *)
Definition before_stop (step x stop : Z) : Prop := if step >? 0 then x < stop else stop < x.
(** The values start, start + step, ... that have not reached stop *)
Definition is_range (start stop step : Z) (l : list Z) : Prop :=
  (forall i x, nth_error l i = Some x -> x = start + Z.of_nat i * step /\ before_stop step x stop) /\
  ~ before_stop step (start + Z.of_nat (length l) * step) stop.
