(** Rows of several arrays: see [row], [row_defined], [row_result], [pointwise] in
    DenseOps_Spec. *)
From Verif Require Import Base Dense_Spec DenseOps_Model DenseOps_Spec Array_Model Array_Spec ArrOps_Model.

(** All arrays have size [n] and denote the lists [ls]. *)
Definition args_rep {A} (n : nat) (args : list (arr A)) (ls : list (list (option A))) : Prop :=
  Forall2 ar_rep args ls /\ Forall (fun l => length l = n) ls.

(** What every row of [from, to) is: the values, or nothing if a required value is
    missing. *)
Definition row_at {A} (opts : list bool) (ls : list (list (option A))) (i : nat) : option (list (option A)) :=
  if row_defined opts (row ls i) then Some (row ls i) else None.
(** Rows covered by a call, in order. *)
Definition covers {A} (c : ocall A) : list (nat * option (list (option A))) :=
  match c with
  | CRow id r => [(id, Some r)]
  | CRepeat first n r => map (fun i => (i, Some r)) (seq first n)
  | CMiss first n => map (fun i => (i, None)) (seq first n)
  end.
(** The defined rows, in order. *)
Definition defined_rows {A} (opts : list bool) (ls : list (list (option A))) (from to : nat)
  : list (nat * list (option A)) :=
  flat_map (fun i => match row_at opts ls i with Some r => [(i, r)] | None => [] end) (seq from (to - from)).

(** What a correct pointwise operator returns: the list of the results of the rows,
    or the error of some row. *)
Definition lifted {A B E} (f : fn A B E) (n : nat) (ls : list (list (option A))) (res : ar_result B E) : Prop :=
  (exists l r, pointwise f ls n = inr l /\ res = ArOk r /\ ar_rep r l) \/
  (exists i e, i < n /\ row_result f (row ls i) = inl e /\ res = ArError e).
