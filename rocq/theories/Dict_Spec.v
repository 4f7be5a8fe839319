(** What a dict of rows is meant to be, independent of the code. *)
From Coq Require Import ZArith.
From Verif Require Import Base.
Local Open Scope Z_scope.

(** The key at a row of a list of keys, some of them missing *)
Definition key_at {K} (keys : list (option K)) (r : Z) (k : K) : Prop :=
  0 <= r /\ nth_error keys (Z.to_nat r) = Some (Some k).
(** No key is at two rows. *)
Definition distinct {K} (keys : list (option K)) : Prop :=
  forall k r r', key_at keys r k -> key_at keys r' k -> r = r'.
(** The entries are exactly the elements of a list with their positions. *)
Definition lists {K} (es : list (K * Z)) (ks : list K) : Prop :=
  forall k r, In (k, r) es <-> 0 <= r /\ nth_error ks (Z.to_nat r) = Some k.
