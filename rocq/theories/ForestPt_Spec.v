(** What the calls of a tree compiler describe, and what a forest predicts. *)
From Coq Require Import Permutation.
From Verif Require Import Base Forest_Model Forest_Spec ForestPt_Model.

(** The ids that the calls define and the ids that they use as children. *)
Definition op_id {T V} (o : bop T V) : nat := match o with SetNode i _ _ _ => i | SetLeaf i _ => i end.
Definition op_children {T V} (o : bop T V) : list nat := match o with SetNode _ l r _ => [l; r] | SetLeaf _ _ => [] end.
Definition ids {T V} (ops : list (bop T V)) : list nat := map op_id ops.
Definition kids {T V} (ops : list (bop T V)) : list nat := flat_map op_children ops.

(** Every id is defined at most once and is the child of at most one node, node 0 of none. *)
Definition calls_valid {T V} (n : nat) (ops : list (bop T V)) : Prop :=
  NoDup (ids ops) /\ (forall i, In i (ids ops) -> i < n) /\
  NoDup (kids ops) /\ (forall i, In i (kids ops) -> 0 < i < n).
(** Every id is defined, and all but 0 are children. *)
Definition calls_complete {T V} (n : nat) (ops : list (bop T V)) : Prop :=
  0 < n /\ (forall i, i < n -> In i (ids ops)) /\ (forall i, 0 < i < n -> In i (kids ops)).

(** Node [id] of the described tree has the value [v] for the tests [ev]. *)
Inductive follows {T V} (ops : list (bop T V)) (ev : T -> bool) : nat -> V -> Prop :=
| fol_leaf id v : In (SetLeaf id v) ops -> follows ops ev id v
| fol_node id l r t v : In (SetNode id l r t) ops -> follows ops ev (if ev t then l else r) v -> follows ops ev id v.

(** Adding values in some order. *)
Definition added {V R} (op : R -> V -> R) (start : R) (vs : list V) (r : R) : Prop :=
  exists l, Permutation l vs /\ r = fold_left op l start.
