(** What an Array means: a list of optional values, observed through size and
    operator[] only. *)
From Verif Require Import Base Bits_Model Bitmap_Model Dense_Model Dense_Spec IdFilter_Model IdFilter_Spec Array_Model.

(** The documented requirements on the fields (array.h:80-85). *)
Definition ar_valid {A} (a : arr A) : Prop :=
  fwf (ar_size a) (ar_ids a) /\ da_valid (ar_data a) /\
  da_size (ar_data a) = length (fids (ar_size a) (ar_ids a)) /\
  (ar_ids a = FFull -> ar_miss a = None).

Definition ar_rep {A} (a : arr A) (l : list (option A)) : Prop :=
  ar_valid a /\ ar_size a = length l /\
  forall i, i < length l -> ar_get a i = Some (nth i l None).

(** New buffers have the requested size and arbitrary content. *)
Definition alloc_sz {A} (alloc : nat -> list A) : Prop := forall n, length (alloc n) = n.
Definition allocw_ok (alloc : nat -> list N) : Prop :=
  forall n, length (alloc n) = n /\ Forall (fun x => x < 2 ^ 32)%N (alloc n).

Definition mem (i : nat) (l : list nat) : bool := existsb (Nat.eqb i) l.

(** The new default replaced an element that is equal to it for operator==, or the
    element is unchanged. *)
Definition same_up_to {A} (eqb : A -> A -> bool) (m e' e : option A) : Prop :=
  e' = e \/ exists x y, m = Some x /\ e' = Some x /\ e = Some y /\ (eqb x y = true \/ eqb y x = true).

(** ToSparseForm(m) of a sparse array that already has the default [m], stores a
    presence bitmap although every stored element is present, and stores some
    element different from [m]. *)
Definition spurious_bitmap {A} (eqb : A -> A -> bool) (a : arr A) (l : list (option A)) (m : option A) : Prop :=
  exists x y, m = Some x /\ ar_miss a = Some y /\ eqb x y = true /\
    is_sparse_form a = true /\ bmp (ar_data a) <> [] /\
    (forall i, In i (fids (length l) (ar_ids a)) -> nth i l None <> None) /\
    exists i v, In i (fids (length l) (ar_ids a)) /\ nth i l None = Some v /\ eqb v x = false.

(** Elements given by ids. *)
Definition at_id {A} (ids : list nat) (vs : list (option A)) (i : nat) : option A :=
  match index_of i ids with Some o => nth o vs None | None => None end.
