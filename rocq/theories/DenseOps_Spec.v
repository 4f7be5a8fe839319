(** What a pointwise operator must compute, on lists of optional values. *)
From Verif Require Import Base Dense_Spec DenseOps_Model.

(** Row [i] of the argument lists. *)
Definition row {A} (ls : list (list (option A))) (i : nat) : list (option A) :=
  map (fun l => nth i l None) ls.
(** All required arguments of the row are present. *)
Definition row_defined {A} (opts : list bool) (r : list (option A)) : bool :=
  forallb (fun p => fst p || is_some (snd p)) (combine opts r).
(** Result for one row: an error, a missing or a present value. *)
Definition row_result {A B E} (f : fn A B E) (r : list (option A)) : E + option B :=
  if row_defined (fn_opts f) r then
    match fn_eval f r with
    | inl e => inl e
    | inr (p, v) => inr (if p then Some v else None)
    end
  else inr None.
(** The first error, or all results. *)
Fixpoint collect {X E} (l : list (E + X)) : E + list X :=
  match l with
  | [] => inr []
  | inl e :: _ => inl e
  | inr x :: t => match collect t with inl e => inl e | inr r => inr (x :: r) end
  end.
Definition pointwise {A B E} (f : fn A B E) (ls : list (list (option A))) (n : nat) : E + list (option B) :=
  collect (map (fun i => row_result f (row ls i)) (seq 0 n)).

(** The static facts about the functor that its C++ type guarantees. *)
Definition fn_ok {A B E} (f : fn A B E) : Prop :=
  (fn_status f = false -> forall r, exists x, fn_eval f r = inr x) /\
  (fn_opt_res f = false -> forall r p v, fn_eval f r = inr (p, v) -> p = true).

(** A callback invocation [(id, valid, values)] for row [i]: the flag tells
    whether all required arguments are present and then the values are those of
    the row. *)
Definition row_call {A} (opts : list bool) (ls : list (list (option A)))
  (c : nat * bool * list (option A)) (i : nat) : Prop :=
  let '(id, valid, values) := c in
  id = i /\ valid = row_defined opts (row ls i) /\ (valid = true -> values = row ls i).

(** What a correct pointwise operator returns for arguments of size [n]. *)
Definition op_outcome {A B E} (f : fn A B E) (ls : list (list (option A))) (n : nat)
  (res : op_result B E) : Prop :=
  match pointwise f ls n with
  | inl e => res = FnError e
  | inr l => exists r, res = OpOk r /\ represents r l
  end.
