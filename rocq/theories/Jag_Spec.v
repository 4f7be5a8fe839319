(** What a jagged shape and a jagged array mean. *)
From Verif Require Import Base Bits_Model Bitmap_Model Dense_Model Dense_Spec Edge_Model Edge_Spec Jag_Model.

(** ** Shapes as row sizes: one list per dimension, [nth i s] the length of row [i].
    The first dimension has one row; every row of a dimension opens as many rows of the
    next one as it has elements. *)
Fixpoint sizes_ok (p : nat) (szs : list (list nat)) : Prop :=
  match szs with [] => True | s :: t => length s = p /\ sizes_ok (list_sum s) t end.
(** The number of elements. *)
Fixpoint total (p : nat) (szs : list (list nat)) : nat :=
  match szs with [] => p | s :: t => total (list_sum s) t end.

(** The row of each element, rows counted from [q]. *)
Fixpoint rows_of (q : nat) (s : list nat) : list (option nat) :=
  match s with [] => [] | n :: t => repeat (Some q) n ++ rows_of (S q) t end.
Definition dim_rep (e : edge) (s : list nat) : Prop := e_split e = true /\ edge_rep e (length s) (rows_of 0 s).
Definition shape_rep (es : shape) (szs : list (list nat)) : Prop := Forall2 dim_rep es szs /\ sizes_ok 1 szs.

(** Edges in any form, given by parent size and mapping, which can be stacked on [c] elements. *)
Fixpoint chain_ok (c : nat) (pms : list (nat * list (option nat))) : Prop :=
  match pms with [] => True | (p, m) :: t => p = c /\ full_sorted m /\ chain_ok (length m) t end.
Definition sizes_of (pm : nat * list (option nat)) : list nat := map (children (snd pm)) (seq 0 (fst pm)).

(** Cuts [l] into consecutive groups of the sizes [s] and sums each. *)
Fixpoint group_sums (s l : list nat) : list nat :=
  match s with [] => [] | n :: t => list_sum (firstn n l) :: group_sums t (skipn n l) end.
(** Several dimensions as one, over [p] rows: the number of elements below each row. *)
Fixpoint flat (p : nat) (szs : list (list nat)) : list nat :=
  match szs with [] => repeat 1 p | s :: t => group_sums s (flat (list_sum s) t) end.
Definition flatten_spec (szs : list (list nat)) (from to : nat) : list (list nat) :=
  firstn from szs ++ [flat (total 1 (firstn from szs)) (firstn (to - from) (skipn from szs))] ++ skipn to szs.

(** ** Jagged arrays as nested lists: [nest A r] is a list of lists ... of A, [r] deep. *)
Fixpoint nest (A : Type) (r : nat) : Type := match r with O => A | S r' => list (nest A r') end.
(** Sizes and leaves of a list of nested lists. *)
Fixpoint shape_of {A} (r : nat) : list (nest A r) -> list (list nat) :=
  match r with
  | O => fun _ => []
  | S r' => fun xs => map (@length (nest A r')) xs :: shape_of r' (concat xs)
  end.
Fixpoint data_of {A} (r : nat) : list (nest A r) -> list A :=
  match r with
  | O => fun xs => xs
  | S r' => fun xs => data_of r' (concat xs)
  end.
(** The first elements of all lists, then the second elements, ...: [n] of them. *)
Fixpoint rows_at {X} (n : nat) (xs : list (list X)) : list (list X) :=
  match n with
  | O => []
  | S n' => flat_map (firstn 1) xs :: rows_at n' (map (skipn 1) xs)
  end.
Definition transpose {X} (xs : list (list X)) : list (list X) := rows_at (length (hd [] xs)) xs.
(** Walk down [d] levels in all inputs together, there apply [f] to the inputs' parts. *)
Fixpoint at_depth {A r q} (f : list (nest A r) -> nest A q) (d : nat) : list (nest A (d + r)) -> nest A (d + q) :=
  match d with
  | O => f
  | S d' => fun xs => map (at_depth f d') (transpose xs)
  end.
(** Concatenation joins the parts; stacking makes the list of the parts a new level. *)
Definition concat_at {A} (r d : nat) : list (nest A (d + S r)) -> nest A (d + S r) := at_depth (r := S r) (q := S r) (@concat (nest A r)) d.
Definition stack_at {A} (r d : nat) : list (nest A (d + r)) -> nest A (d + S r) := at_depth (r := r) (q := S r) (fun xs => xs) d.

(** Python's reading of an index used as a bound of a sequence of [n] elements. *)
Definition py_bound (i : Z) (n : nat) : nat :=
  if (i <? 0)%Z then n - Z.to_nat (- i) else Nat.min (Z.to_nat i) n.
