(** What the integer operators mean, without machine arithmetic. *)
From Coq Require Import ZArith List.
Local Open Scope Z_scope.

(** The values of the signed type with w bits. *)
Definition of_type (w x : Z) : Prop := - 2 ^ (w - 1) <= x < 2 ^ (w - 1).
(** r is the value of the type that equals the exact result x up to a multiple of 2^w;
    there is exactly one, and it is x itself if x is a value of the type. *)
Definition wraps (w x r : Z) : Prop := of_type w r /\ exists k, x = r + k * 2 ^ w.
(** q is the quotient of a and b rounded towards minus infinity, r the rest;
    the rest lies between 0 and b and is not b. *)
Definition floor_quotient (a b q r : Z) : Prop := a = q * b + r /\ (0 <= r < b \/ b < r <= 0).
