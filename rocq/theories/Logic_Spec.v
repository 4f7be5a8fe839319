(** Missing values, independent of the code. *)
From Verif Require Import Base Logic_Model.
(** What an optional value stands for; the value kept by a missing one does not matter. *)
Definition sem {A} (x : opt A) : option A := if present x then Some (value x) else None.
(** A value that a missing input might have had *)
Definition completes {A} (x : opt A) (v : A) : Prop := sem x = Some v \/ sem x = None.
(** The first of several values that is present *)
Fixpoint first_of {A} (l : list (option A)) : option A :=
  match l with [] => None | Some v :: _ => Some v | None :: t => first_of t end.
Definition masked {A} (x : option A) (c : bool) : option A := if c then x else None.
