(** What bitmask evaluation has to compute. *)
From Coq Require Import Permutation.
From Verif Require Import Base Forest_Model Forest_Spec FullAcc_Spec ForestBm_Model.

(** The standard library functions do what the standard promises. *)
Record lib_ok (lib : library) : Prop := {
  lib_sort : forall E, std_sort (l_sort lib E);
  lib_iter : forall E l, Permutation (l_iter lib E l) l;
  lib_upper : forall E (p : E -> bool) a b, (forall x, In x a -> p x = true) -> (forall x, In x b -> p x = false) ->
    l_upper lib E p (a ++ b) = length a }.
(** operator== of conditions: the same object, or Equals. *)
Definition ceq_ok (ceq : cond -> cond -> bool) : Prop := forall c d, ceq c d = true -> c = d \/ cequals c d = true.
(** Conditions without NaN bounds; the values of a set are distinct. *)
Definition cond_ok (c : cond) : Prop :=
  match c with
  | Interval _ l r => l <> S754_nan /\ r <> S754_nan
  | SetI64 _ vs _ => NoDup vs
  | _ => True
  end.

(** ** Oblivious trees: all leaves at the same depth and equal conditions at every depth. *)
Fixpoint is_oblivious (ceq : cond -> cond -> bool) (layers : list cond) (d : dtree) : Prop :=
  match layers, d with
  | [], DLeaf _ => True
  | c :: r, DNode c' f t => (c = c' \/ ceq c c' = true) /\ is_oblivious ceq r f /\ is_oblivious ceq r t
  | _, _ => False
  end.
(** All conditions of a tree, and those on the way to its first leaf. *)
Fixpoint conds (d : dtree) : list cond := match d with DLeaf _ => [] | DNode c f t => c :: conds f ++ conds t end.
Fixpoint leftmost (d : dtree) : list cond := match d with DLeaf _ => [] | DNode c f _ => c :: leftmost f end.
(** The index in binary with one digit per layer, the first layer first. *)
Definition binary (bs : list bool) : nat := fold_left (fun n b => 2 * n + Nat.b2n b) bs 0.

(** ** The trees given to a builder: their groups, and that each of them is a tree. *)
Inductive bcall V := Small (g : nat) (t : tree V) (d : dtree) | Oblivious (g : nat) (t : tree V) (d : dtree) (o : otree V).
Arguments Small {V}. Arguments Oblivious {V}.
Definition bc_group {V} (c : bcall V) : nat := match c with Small g _ _ => g | Oblivious g _ _ _ => g end.
Definition bc_tree {V} (c : bcall V) : tree V := match c with Small _ t _ => t | Oblivious _ t _ _ => t end.
Definition bc_dtree {V} (c : bcall V) : dtree := match c with Small _ _ d => d | Oblivious _ _ d _ => d end.
(** The value of the tree for a row. *)
Definition bc_value {V} (vo : vops V) (ot : others) (fr : frame) (c : bcall V) : option V := tree_value vo ot fr (bc_tree c) (bc_dtree c).
(** What the tree has to satisfy to be given to the builder. *)
Definition bc_ok {V} (vo : vops V) (ceq : cond -> cond -> bool) (c : bcall V) : Prop :=
  is_tree (bc_tree c) (bc_dtree c) /\
  (forall i, In i (leaves (bc_dtree c)) -> i < length (t_adj (bc_tree c))) /\
  (forall n, In n (t_nodes (bc_tree c)) -> supported (n_cond n) = true /\ cond_ok (n_cond n)) /\
  match c with
  | Small _ t d => NoDup (leaves d) /\ length (t_adj t) <= 64
  | Oblivious _ t d o => length (ot_layers V o) <= 64 /\ exists fuel, to_oblivious V vo ceq fuel t = Done (Some o)
  end.
(** The calls and the builder they lead to, for enough fuel. *)
Definition run_call {V} (vo : vops V) (fuel : nat) (b : outcome (bbuilder V)) (c : bcall V) : outcome (bbuilder V) :=
  obind b (fun b => match c with
                    | Small g t _ => add_small V vo fuel b t g
                    | Oblivious g _ _ o => Done (add_oblivious V b o g)
                    end).
Definition run_calls {V} (vo : vops V) (fuel : nat) (cs : list (bcall V)) : outcome (bbuilder V) :=
  fold_left (run_call vo fuel) cs (Done (new_bbuilder V)).
