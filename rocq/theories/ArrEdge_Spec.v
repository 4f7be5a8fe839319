(** What an ArrayEdge means: as for DenseArrayEdge, a parent size and an optional
    parent for every child.  Split points are in dense form (edge.h:92-95). *)
From Verif Require Import Base Dense_Model Dense_Spec IdFilter_Model Array_Model Array_Spec Edge_Model Edge_Spec ArrEdge_Model.

Definition aedge_rep (e : aedge) (p : nat) (m : list (option nat)) : Prop :=
  ae_parent e = Z.of_nat p /\ ae_child e = Z.of_nat (length m) /\
  (forall c q, nth c m None = Some q -> q < p) /\
  if ae_split e then
    ar_ids (ae_vals e) = FFull /\
    exists s, splits s /\ length s = S p /\ nth p s 0 = length m /\
      ar_rep (ae_vals e) (map (fun x => Some (Z.of_nat x)) s) /\
      forall q c, q < p -> nth q s 0 <= c < nth (S q) s 0 -> nth c m None = Some q
  else ar_rep (ae_vals e) (map zopt m).

(** A chain of array edges, as [chain_rep]. *)
Inductive achain_rep : list aedge -> nat -> list (option nat) -> Prop :=
| achain_one e p m : aedge_rep e p m -> achain_rep [e] p m
| achain_cons e p m1 es m2 : aedge_rep e p m1 -> achain_rep es (length m1) m2 ->
    achain_rep (e :: es) p (compose2 m1 m2).
