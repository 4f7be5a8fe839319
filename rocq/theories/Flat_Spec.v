(** Splitting an array by an edge, independent of the code. *)
From Verif Require Import Base.
(** The parts of a list between the split points *)
Fixpoint parts {A} (splits : list nat) (l : list A) : list (list A) :=
  match splits with
  | a :: t => match t with b :: _ => firstn (b - a) (skipn a l) :: parts t l | [] => [] end
  | [] => []
  end.
