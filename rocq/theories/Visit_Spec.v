(** Sub-expressions, orders, and recursive descriptions of traversal and transformation. *)
From Verif Require Import Base Visit_Model.

Inductive sub (x : node) : node -> Prop :=
  | sub_refl : sub x x
  | sub_dep n d : In d (deps n) -> sub x d -> sub x n.

(** Position [i] of [l] is before [j]. *)
Definition before {A} (l : list A) (x y : A) : Prop := exists i j, i < j /\ nth_error l i = Some x /\ nth_error l j = Some y.
(** Opening and closing events match as parentheses do. *)
Inductive nested : list (bool * node) -> Prop :=
  | nest_nil : nested []
  | nest_node x l l' : nested l -> nested l' -> nested ((true, x) :: l ++ (false, x) :: l').

(** Order of strings: a proper prefix, or smaller at the first difference. *)
Definition str_lt (a b : list nat) : Prop :=
  (exists c t, b = a ++ c :: t) \/ exists p x y s t, a = p ++ x :: s /\ b = p ++ y :: t /\ x < y.
Definition increasing (l : list (list nat)) : Prop := forall i j a b, i < j -> nth_error l i = Some a -> nth_error l j = Some b -> str_lt a b.

(** Results from left to right, or the first error. *)
Fixpoint collect {E T} (l : list (E + T)) : E + list T :=
  match l with
  | [] => inr []
  | inl e :: _ => inl e
  | inr x :: t => match collect t with inl e => inl e | inr r => inr (x :: r) end
  end.
Section Up.
Context {E T : Type}.
Variable v : node -> list T -> E + T.
(** A visitor applied recursively, to the results of the dependencies. *)
Fixpoint bottom_up (n : node) : E + T :=
  match n with
  | Op _ _ ds => match collect (map bottom_up ds) with inl e => inl e | inr args => v n args end
  | _ => v n []
  end.
End Up.

Definition attr_dec (a b : attr) : {a = b} + {a <> b}.
Proof. decide equality; apply Nat.eq_dec. Defined.
Fixpoint node_dec (a b : node) {struct a} : {a = b} + {a <> b}.
Proof.
  destruct a as [x|x|x|o p ds], b as [y|y|y|o' p' ds']; try (right; discriminate).
  - destruct (Nat.eq_dec x y); [left; congruence|right; congruence].
  - destruct (list_eq_dec Nat.eq_dec x y); [left; congruence|right; congruence].
  - destruct (list_eq_dec Nat.eq_dec x y); [left; congruence|right; congruence].
  - destruct (Nat.eq_dec o o'); [|right; congruence]. destruct (attr_dec p p'); [|right; congruence].
    assert (D : {ds = ds'} + {ds <> ds'}).
    { revert ds'. induction ds as [|d ds IH]; intros [|d' ds']; [left; reflexivity|right; discriminate|right; discriminate|].
      destruct (node_dec d d'); [|right; congruence]. destruct (IH ds'); [left; congruence|right; congruence]. }
    destruct D; [left; congruence|right; congruence].
Defined.

Section Rw.
Context {E : Type}.
Variable infer : nat -> list attr -> E + attr.
Variable f : node -> E + node.
(** [Transform]: the node with its transformed dependencies, transformed.  The operator is
    applied anew only if a dependency has changed. *)
Definition reapply (n : node) (ds : list node) : E + node :=
  if list_eq_dec node_dec ds (deps n) then f n else
  match n with
  | Op o _ _ => match infer o (map attr_of ds) with inl e => inl e | inr a => f (Op o a ds) end
  | _ => f n
  end.
Definition rewritten : node -> E + node := bottom_up reapply.

(** [DeepTransform].  A node with other dependencies keeps its attributes if those of the
    dependencies are the same. *)
Inductive rebuilt : node -> list node -> node -> Prop :=
  | reb_same n : rebuilt n (deps n) n
  | reb_keep o a old ds : ds <> old -> map attr_of ds = map attr_of old -> rebuilt (Op o a old) ds (Op o a ds)
  | reb_infer o a old ds a' : ds <> old -> map attr_of ds <> map attr_of old -> infer o (map attr_of ds) = inr a' ->
      rebuilt (Op o a old) ds (Op o a' ds).
(** [norm n r]: rewriting the dependencies, then the node, then what it was rewritten to,
    and so on, ends with [r]. *)
Inductive norm : node -> node -> Prop :=
  | norm_fix n ds n' : norms (deps n) ds -> rebuilt n ds n' -> f n' = inr n' -> norm n n'
  | norm_step n ds n' t r : norms (deps n) ds -> rebuilt n ds n' -> f n' = inr t -> t <> n' -> norm t r -> norm n r
with norms : list node -> list node -> Prop :=
  | norms_nil : norms [] []
  | norms_cons d r ds rs : norm d r -> norms ds rs -> norms (d :: ds) (r :: rs).
(** The result of [n] needs that of [m]. *)
Definition needs (n m : node) : Prop :=
  In m (deps n) \/ exists ds n', norms (deps n) ds /\ rebuilt n ds n' /\ f n' = inr m /\ m <> n'.
Inductive needs_plus : node -> node -> Prop :=
  | np_one n m : needs n m -> needs_plus n m
  | np_more n m k : needs n m -> needs_plus m k -> needs_plus n k.
Definition needs_star (n m : node) : Prop := n = m \/ needs_plus n m.
(** What a run may meet: nodes whose results are needed, and these with new dependencies. *)
Definition needed (root k : node) : Prop :=
  needs_star root k \/ exists m ds, needs_star root m /\ norms (deps m) ds /\ rebuilt m ds k.
End Rw.
