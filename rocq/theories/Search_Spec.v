(** What a bound is, independently of how it is searched. *)
From Verif Require Import Base Search_Model.

(** In positions [b, e) of [a], [k] separates the elements satisfying [lt] from
    those that do not. *)
Definition is_bound {A} (lt : A -> bool) (a : list A) (b e k : nat) : Prop :=
  b <= k <= e /\ (forall i x, b <= i < k -> nth_error a i = Some x -> lt x = true) /\
  (forall i x, k <= i < e -> nth_error a i = Some x -> lt x = false).

(** A range that has a bound. *)
Definition partitioned {A} (lt : A -> bool) (a : list A) (b e : nat) : Prop :=
  forall i j x y, b <= i -> i <= j -> j < e -> nth_error a i = Some x -> nth_error a j = Some y ->
    lt y = true -> lt x = true.

Definition sorted (a : list Z) : Prop :=
  forall i j x y, i <= j -> nth_error a i = Some x -> nth_error a j = Some y -> (x <= y)%Z.
Definition count {A} (p : A -> bool) (l : list A) : nat := length (filter p l).
