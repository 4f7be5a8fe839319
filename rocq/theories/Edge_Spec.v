(** What an edge means: a parent size and, for every child, its optional parent. *)
From Verif Require Import Base Bits_Model Bitmap_Model Dense_Model Dense_Spec Edge_Model.

Definition zopt (o : option nat) : option Z := option_map Z.of_nat o.

(** [s] is a list of split points: starts with 0, non-decreasing. *)
Definition splits (s : list nat) : Prop :=
  s <> [] /\ nth 0 s 0 = 0 /\ forall i j, i <= j < length s -> nth i s 0 <= nth j s 0.

(** Edge [e] maps children [0 .. length m - 1] to parents [0 .. p - 1] as told by [m]. *)
Definition edge_rep (e : edge) (p : nat) (m : list (option nat)) : Prop :=
  e_parent e = Z.of_nat p /\ e_child e = Z.of_nat (length m) /\
  (forall c q, nth c m None = Some q -> q < p) /\
  if e_split e then
    exists s, splits s /\ length s = S p /\ nth p s 0 = length m /\
      represents (e_vals e) (map (fun x => Some (Z.of_nat x)) s) /\
      forall q c, q < p -> nth q s 0 <= c < nth (S q) s 0 -> nth c m None = Some q
  else represents (e_vals e) (map zopt m).

(** The mapping is full and non-decreasing. *)
Definition full_sorted (m : list (option nat)) : Prop :=
  (forall c, c < length m -> nth c m None <> None) /\
  forall c d q r, c <= d -> nth c m None = Some q -> nth d m None = Some r -> q <= r.

(** Following [m2] (inner) then [m1] (outer). *)
Definition compose2 (m1 m2 : list (option nat)) : list (option nat) :=
  map (fun o => match o with Some q => nth q m1 None | None => None end) m2.
(** A chain of edges, outermost first: the parent size of each edge is the child
    size of the previous one; [p] is the first parent size and [m] the result of
    following all the edges. *)
Inductive chain_rep : list edge -> nat -> list (option nat) -> Prop :=
| chain_one e p m : edge_rep e p m -> chain_rep [e] p m
| chain_cons e p m1 es m2 : edge_rep e p m1 -> chain_rep es (length m1) m2 ->
    chain_rep (e :: es) p (compose2 m1 m2).

(** The mapping described by split points: [s(q+1) - s(q)] children for parent [q]. *)
Definition split_mapping (s : list nat) : list (option nat) :=
  flat_map (fun q => repeat (Some q) (nth (S q) s 0 - nth q s 0)) (seq 0 (length s - 1)).
(** Number of children of parent [q]. *)
Definition children (m : list (option nat)) (q : nat) : nat :=
  length (filter (fun o => match o with Some r => r =? q | None => false end) m).

(** New buffers have the requested size and arbitrary content. *)
Definition alloc_ok (alloc : nat -> list Z) : Prop := forall n, length (alloc n) = n.

(** All present values are valid parent ids. *)
Definition in_range (l : list (option Z)) (P : Z) : Prop := forall v, In (Some v) l -> (0 <= v < P)%Z.
