(** Who refers to an object. *)
From Verif Require Import Base Ref_Model.

(** Number of handles to [o] in a list of handles. *)
Definition occ (o : nat) (l : list (option nat)) : nat := length (filter (same (Some o)) l).
Definition idle (s : st) : Prop := forall th, In th (ths s) -> work th = [].
(** Number of handles to [o]: variables and handles inside of live objects. *)
Definition handles_to (s : st) (o : nat) : nat :=
  list_sum (map (fun th => occ o (vars th)) (ths s)) +
  list_sum (map (fun x => match x with Some ob => occ o (flds ob) | None => 0 end) (objs s)).
(** Objects that are reachable from the variables. *)
Inductive reachable (s : st) : nat -> Prop :=
  | r_var th o : In th (ths s) -> In (Some o) (vars th) -> reachable s o
  | r_fld p ob o : reachable s p -> rd (objs s) p = Some (Some ob) -> In (Some o) (flds ob) -> reachable s o.
