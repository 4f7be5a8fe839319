(** What the edge operators compute, on plain lists. *)
From Verif Require Import Base Dense_Model Dense_Spec Edge_Model Edge_Spec.

(** A full array of the given numbers. *)
Definition nums (ns : list nat) : list (option Z) := map (fun n => Some (Z.of_nat n)) ns.
(** [ns(q)] consecutive children for every parent [q]. *)
Definition size_mapping (ns : list nat) : list (option nat) :=
  flat_map (fun q => repeat (Some q) (nth q ns 0)) (seq 0 (length ns)).
(** Pairs of children of the same parent, for consecutive groups of sizes [ns]
    that start with child [b]; ordered by the left, then by the right child. *)
Fixpoint pairs (b : nat) (ns : list nat) : list (nat * nat) :=
  match ns with
  | [] => []
  | s :: t => list_prod (seq b s) (seq b s) ++ pairs (b + s) t
  end.
Definition left_mapping (ns : list nat) : list (option nat) := map (fun p => Some (fst p)) (pairs 0 ns).
Definition right_mapping (ns : list nat) : list (option nat) := map (fun p => Some (snd p)) (pairs 0 ns).
Definition sum_sq (ns : list nat) : nat := list_sum (map (fun s => s * s) ns).

(** Every child gets the value of its parent. *)
Definition expand {A} (l : list (option A)) (m : list (option nat)) : list (option A) :=
  map (fun o => match o with Some q => nth q l None | None => None end) m.

(** Resizing: child [c] of group [q] with offset [o] below the new size of the
    group moves to position [o] of the new group [q]. *)
Definition base (ns : list nat) (q : nat) : nat := list_sum (firstn q ns).
Definition placed (m : list (option nat)) (offs : list (option Z)) (ns : list nat) (c n : nat) : Prop :=
  exists q o, nth c m None = Some q /\ nth c offs None = Some (Z.of_nat o) /\ o < nth q ns 0 /\ n = base ns q + o.
Definition has_negative (offs : list (option Z)) : Prop := exists c z, nth c offs None = Some z /\ (z < 0)%Z.
Definition has_duplicate (m : list (option nat)) (offs : list (option Z)) (ns : list nat) : Prop :=
  exists c d n, c <> d /\ placed m offs ns c n /\ placed m offs ns d n.
