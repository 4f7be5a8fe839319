(** Decision trees as mathematical trees, and what a valid forest and the value of a
    forest are. *)
From Coq Require Import Permutation.
From Verif Require Import Base Forest_Model.

(** A binary tree with a condition in every inner node and the number of an adjustment
    in every leaf. *)
Inductive dtree := DLeaf (i : nat) | DNode (c : cond) (f t : dtree).

(** The leaf that a row reaches. *)
Fixpoint deval (ot : others) (fr : frame) (d : dtree) : nat :=
  match d with DLeaf i => i | DNode c f t => if ceval ot fr c then deval ot fr t else deval ot fr f end.
Fixpoint leaves (d : dtree) : list nat :=
  match d with DLeaf i => [i] | DNode _ f t => leaves f ++ leaves t end.
Fixpoint height (d : dtree) : nat :=
  match d with DLeaf _ => 0 | DNode _ f t => S (Nat.max (height f) (height t)) end.

(** The nodes of a vector, followed from node id [id], form the tree [d]. *)
Inductive unfolds (ns : list snode) : Z -> dtree -> Prop :=
| unf_leaf id : (id < 0)%Z -> unfolds ns id (DLeaf (Z.to_nat (- id - 1)))
| unf_split k n f t : nth_error ns k = Some n -> unfolds ns (n_false n) f -> unfolds ns (n_true n) t ->
    unfolds ns (Z.of_nat k) (DNode (n_cond n) f t).
(** A tree of a forest is the tree [d]. *)
Definition is_tree {V} (t : tree V) (d : dtree) : Prop :=
  unfolds (t_nodes t) (match t_nodes t with [] => (-1)%Z | _ => 0%Z end) d.

(** What the documentation of DecisionTree asks for: no node is the child of two nodes or
    twice of the same node, and the root is the child of none. *)
Definition children (ns : list snode) : list Z := flat_map (fun n => [n_false n; n_true n]) ns.
Definition split_children (ns : list snode) : list Z := filter (fun c => (0 <=? c)%Z) (children ns).

(** A forest is valid for an assignment of types to inputs. *)
Definition valid_tree {V} (ot : others) (ty : nat -> ity) (t : tree V) : Prop :=
  (0 <= t_sub t)%Z /\ (0 <= t_step t)%Z /\ length (t_adj t) = S (length (t_nodes t)) /\
  (forall c, In c (children (t_nodes t)) -> (- Z.of_nat (length (t_adj t)) <= c < Z.of_nat (length (t_nodes t)))%Z) /\
  (forall n i k, In n (t_nodes t) -> In (i, k) (csig ot (n_cond n)) -> ty i = k).
Definition uses {V} (ot : others) (ts : list (tree V)) (i : nat) (k : ity) : Prop :=
  exists t n, In t ts /\ In n (t_nodes t) /\ In (i, k) (csig ot (n_cond n)).

(** The value of a tree that is the tree [d] and the values of the selected trees of a
    forest, from the first to the last. *)
Definition tree_value {V} (vo : vops V) (ot : others) (fr : frame) (t : tree V) (d : dtree) : option V :=
  option_map (fun a => vmul vo a (t_weight t)) (nth_error (t_adj t) (deval ot fr d)).
Inductive values {V} (vo : vops V) (ot : others) (fr : frame) (f : tfilter) : list (tree V) -> list V -> Prop :=
| vals_nil : values vo ot fr f [] []
| vals_skip t ts vs : selects f t = false -> values vo ot fr f ts vs -> values vo ot fr f (t :: ts) vs
| vals_take t ts vs d v : selects f t = true -> is_tree t d -> tree_value vo ot fr t d = Some v ->
    values vo ot fr f ts vs -> values vo ot fr f (t :: ts) (v :: vs).

(** [sum_of l v]: [v] is the sum of the values of [l], each taken once, added in some
    order with some grouping, with zeros added and with intermediate results stored as
    floats anywhere. *)
Inductive sum_of {V} (vo : vops V) : list V -> V -> Prop :=
| sum_zero : sum_of vo [] (vzero vo)
| sum_one v : sum_of vo [v] v
| sum_add l1 l2 a b : sum_of vo l1 a -> sum_of vo l2 b -> sum_of vo (l1 ++ l2) (vadd vo a b)
| sum_rnd l a : sum_of vo l a -> sum_of vo l (vrnd vo a)
| sum_perm l l' a : Permutation l l' -> sum_of vo l a -> sum_of vo l' a.
(** Exact arithmetic. *)
Record exact {V} (vo : vops V) : Prop := {
  ex_comm : forall a b, vadd vo a b = vadd vo b a;
  ex_assoc : forall a b c, vadd vo a (vadd vo b c) = vadd vo (vadd vo a b) c;
  ex_zero : forall a, vadd vo (vzero vo) a = a;
  ex_rnd : forall a, vrnd vo a = a }.
