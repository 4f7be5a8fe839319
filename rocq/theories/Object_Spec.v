(** What an object is meant to be: a chain of maps, the nearest first. *)
From Coq Require Import Sorted Permutation.
From Verif Require Import Base Object_Model.

Section Spec.
Context {V : Type}.
Notation obj := (obj V).

(** Attribute [k] of this map is [v]. *)
Definition maps (a : list (key * V)) (k : key) (v : V) : Prop := In (k, v) a.
Definition is_map (a : list (key * V)) : Prop := NoDup (map fst a).
Fixpoint levels (o : obj) : list (list (key * V)) :=
  match o with Null => [[]] | Bare a => [a] | Ext a p => a :: levels p end.
Definition well (o : obj) : Prop := Forall is_map (levels o).
(** The nearest map that has the attribute decides. *)
Definition attr_is (o : obj) (k : key) (v : V) : Prop :=
  exists i a, nth_error (levels o) i = Some a /\ maps a k v /\
    forall j b w, j < i -> nth_error (levels o) j = Some b -> ~ maps b k w.

(** Keys are ordered as strings of bytes. *)
Inductive key_lt : key -> key -> Prop :=
  | lt_nil x b : key_lt [] (x :: b)
  | lt_head x y a b : x < y -> key_lt (x :: a) (y :: b)
  | lt_tail x a b : key_lt a b -> key_lt (x :: a) (x :: b).
(** What std::sort promises. *)
Definition sorts (srt : list (key * V) -> list (key * V)) : Prop :=
  forall l, Permutation (srt l) l /\ StronglySorted (fun x y => key_ltb (fst y) (fst x) = false) (srt l).

(** Two objects are the same: the same chain of maps with the same values. *)
Variable veq : V -> V -> Prop.
Definition same_map (a b : list (key * V)) : Prop :=
  (forall k v, maps a k v -> exists w, maps b k w /\ veq v w) /\ (forall k w, maps b k w -> exists v, maps a k v /\ veq v w).
Definition same (o o' : obj) : Prop := Forall2 same_map (levels o) (levels o').
End Spec.
