(** What a protopath id says, and prefixes of paths. *)
From Coq Require Import Ascii String.
From Verif Require Import Base Strings_Model Repr_Model Naming_Model.
Local Open Scope list_scope.

(** The text of one segment: "[:]" marks an index. *)
Inductive seg_says : list Z -> segment -> Prop :=
| ss_index n : seg_says (n ++ bytes "[:]") (mkSeg n true)
| ss_plain n : (forall m, n <> m ++ bytes "[:]") -> seg_says n (mkSeg n false).
(** A path: nothing, or segments that start with a slash each; one more slash may follow. *)
Inductive says : list Z -> path -> Prop :=
| says_root : says [] []
| says_slash : says (bytes "/") []
| says_seg t s p u : seg_says t s -> ~ In slash t -> (p = [] -> t = [] -> u = bytes "/") -> says u p -> says (bytes "/" ++ t ++ u) (s :: p).
(** The paths that protopath ids can express. *)
Definition expressible (p : path) : Prop :=
  (forall s, In s p -> ~ In slash (field_name s) /\ (is_index s = false -> forall m, field_name s <> m ++ bytes "[:]")) /\
  (forall q, p <> q ++ [mkSeg [] false]).
(** [q] is the longest path with [P] among the prefixes of [p]. *)
Definition longest_prefix (P : path -> Prop) (p q : path) : Prop :=
  (exists r, p = q ++ r) /\ P q /\ forall q' r', p = q' ++ r' -> P q' -> List.length q' <= List.length q.
(** The root, or a path to an index. *)
Definition index_path (q : path) : Prop := q = [] \/ exists q' n, q = q' ++ [mkSeg n true].
