(** Short-circuit evaluation, and which nodes it is allowed to look at. *)
From Verif Require Import Base Visit_Model Visit_Spec Where_Model.

(** [walk a l b]: [l] leads from [a] to [b], each node a dependency of the one before. *)
Inductive walk : node -> list node -> node -> Prop :=
  | walk_one n : walk n [n] n
  | walk_step n d l v : In d (deps n) -> walk d l v -> walk n (n :: l) v.
(** [v] is only used through [b]. *)
Definition only_through (root b v : node) : Prop := forall l, walk root l v -> In b l.
(** [w] uses [b] once and nothing else uses it. *)
Definition only_use (root w b : node) : Prop :=
  count_occ node_dec (deps w) b = 1 /\ forall q, sub q root -> In b (deps q) -> q = w.
Definition computed (n : node) : bool := match n with Lit _ | Leaf _ => false | _ => true end.

Section Spec.
Variable scw : nat.
(** In [root], branch [b] is only used by a conditional with condition [c], which selects it
    if [c] is [sel]. *)
Inductive branch (root : node) : node -> bool -> node -> Prop :=
  | branch_true a c t f : sub (Op scw a [c; t; f]) root -> only_use root (Op scw a [c; t; f]) t -> computed t = true -> branch root c true t
  | branch_false a c t f : sub (Op scw a [c; t; f]) root -> only_use root (Op scw a [c; t; f]) f -> computed f = true -> branch root c false f.

Context {D : Type}.
Variable lit : nat -> D.
Variable env : list nat -> D.
Variable sem : nat -> list D -> option D.
Variable present : D -> bool.
(** A conditional needs its condition and the selected branch. *)
Fixpoint lazy (n : node) : option D :=
  match n with
  | Lit v => Some (lit v)
  | Leaf k => Some (env k)
  | Plh _ => None
  | Op o _ ds =>
      if o =? scw then
        match ds with
        | [c; t; f] => match lazy c with None => None | Some v => if present v then lazy t else lazy f end
        | _ => None
        end
      else match all_some (map lazy ds) with None => None | Some vs => sem o vs end
  end.
(** All branches through which [v] is only used are selected. *)
Definition selected (root v : node) : Prop :=
  forall c sel b, branch root c sel b -> only_through root b v -> exists x, lazy c = Some x /\ present x = sel.
End Spec.
(** Every conditional has three arguments. *)
Definition ternary (scw : nat) (root : node) : Prop := forall a ds, sub (Op scw a ds) root -> length ds = 3.
Definition no_op (o : nat) (root : node) : Prop := forall a ds, ~ sub (Op o a ds) root.

(** The expression a compiled expression stands for: conditionals put back in place. *)
Section Unpack.
Variables scw where_op : nat.
Fixpoint unpack (args : list node) (y : ex) : node :=
  match y with
  | XLit v => Lit v
  | XLeaf k => Leaf k
  | XPlh k => Plh k
  | XArg i => nth i args (Plh [])
  | XOp o a ds => Op (if o =? where_op then scw else o) a (map (unpack args) ds)
  | XPack a t f nt ds =>
      match map (unpack args) ds with
      | [] => Plh []
      | c :: r => Op scw a [c; unpack (firstn nt r) t; unpack (skipn nt r) f]
      end
  end.
(** [computes args y p u]: [y] applies the operator of [u], inside of the branches [p]. *)
Inductive computes : list node -> ex -> list node -> node -> Prop :=
  | comp_op args o a ds : computes args (XOp o a ds) [] (unpack args (XOp o a ds))
  | comp_pack args a t f nt ds : computes args (XPack a t f nt ds) [] (unpack args (XPack a t f nt ds))
  | comp_dep args y d p u : In d (xdeps y) -> computes args d p u -> computes args y p u
  | comp_true args a t f nt c ds p u : computes (firstn nt (map (unpack args) ds)) t p u ->
      computes args (XPack a t f nt (c :: ds)) (unpack (firstn nt (map (unpack args) ds)) t :: p) u
  | comp_false args a t f nt c ds p u : computes (skipn nt (map (unpack args) ds)) f p u ->
      computes args (XPack a t f nt (c :: ds)) (unpack (skipn nt (map (unpack args) ds)) f :: p) u.
End Unpack.
