(** What a group operator must compute: group by group, on lists of optional
    values. *)
From Verif Require Import Base Dense_Model Dense_Spec DenseOps_Spec GroupOps_Model.

Section G.
Context {S P C R Err : Type}.
Variable acc : accum S P C R Err.
(** Parent columns, child columns, number of children, and the parent of each child. *)
Variables (pls : list (list (option P))) (cls : list (list (option C))) (n : nat)
  (m : list (option nat)).

(** The group takes part: its required parent values are present. *)
Definition group_valid (q : nat) : bool := row_defined (a_popts acc) (row pls q).
(** Child [c] takes part: its required values are present. *)
Definition child_valid (c : nat) : bool := row_defined (a_copts acc) (row cls c).
(** The children of [q] that take part and come before [k], in order. *)
Definition members (q k : nat) : list nat :=
  filter (fun c => match nth c m None with Some r => r =? q | None => false end && child_valid c) (seq 0 k).

Definition start (prow : list (option P)) : S := a_reset acc prow (a_empty acc).
Definition add (s : S) (c : nat) : S :=
  a_add acc (if a_forward_id acc then Some c else None) (row cls c) s.
Definition result (s : S) : option R := fst (a_result acc s).
Definition next (s : S) : S := snd (a_result acc s).

(** The accumulator after the whole group, started in state [s]: aggregators are
    read once, partial accumulators after every Add, full accumulators are
    finalised and then read once per member. *)
Definition group_final (s : S) (ids : list nat) : S :=
  match a_kind acc with
  | Aggregator => next (fold_left add ids s)
  | Partial => fold_left (fun s c => next (add s c)) ids s
  | Full => fold_left (fun s _ => next s) ids (a_finalize acc (fold_left add ids s))
  end.
(** What is read from a group with members [all], for a member with the members
    [before] it ([c] itself excluded). *)
Definition aggregate (s : S) (all : list nat) : option R := result (fold_left add all s).
Definition child_result (s : S) (before all : list nat) (c : nat) : option R :=
  match a_kind acc with
  | Aggregator => None
  | Partial => result (add (fold_left (fun s c => next (add s c)) before s) c)
  | Full => result (fold_left (fun s _ => next s) before (a_finalize acc (fold_left add all s)))
  end.

(** The state group [q] ends in. *)
Definition final_of (q : nat) : S := group_final (start (row pls q)) (members q n).
(** The result of group [q], for aggregators. *)
Definition parent_out (q : nat) : option R :=
  if group_valid q then aggregate (start (row pls q)) (members q n) else None.
(** The result of child [c], for partial and full accumulators. *)
Definition child_out (c : nat) : option R :=
  match nth c m None with
  | Some q => if group_valid q && child_valid c
              then child_result (start (row pls q)) (members q c) (members q n) c else None
  | None => None
  end.
Definition outputs (p : nat) : list (option R) :=
  match a_kind acc with
  | Aggregator => map parent_out (seq 0 p)
  | _ => map child_out (seq 0 n)
  end.
(** Error of the first group, in order, that ends with an error. *)
Definition group_error (q : nat) : option Err :=
  if group_valid q then a_status acc (final_of q) else None.
Fixpoint first_error (qs : list nat) : option Err :=
  match qs with
  | [] => None
  | q :: t => match group_error q with Some e => Some e | None => first_error t end
  end.

(** Scalar edge: one group with all the children. *)
Definition all_members (k : nat) : list nat := filter child_valid (seq 0 k).
Definition scalar_out (prow : list (option P)) (c : nat) : option R :=
  if child_valid c then child_result (start prow) (all_members c) (all_members n) c else None.
End G.

(** The contract of an accumulator that is reused for several groups
    (aggregation_ops_interface.h:113-150): an error, once recorded, is never
    lost, "Reset shouldn't clean the status"; as long as there is no error, what
    happens after Reset does not depend on what happened before.  [sim] relates
    states that behave alike until the group is finalised and [fin] states that
    behave alike afterwards. *)
Section Contract.
Context {S P C R Err : Type}.
Variable acc : accum S P C R Err.
Definition ok (s : S) : Prop := a_status acc s = None.
Definition alike (rel : S -> S -> Prop) (a b : S) : Prop :=
  (ok a /\ ok b /\ rel a b) \/ (~ ok a /\ ~ ok b).
Definition same_result (rel : S -> S -> Prop) (a b : S) : Prop :=
  alike rel (snd (a_result acc a)) (snd (a_result acc b)) /\
  (ok (snd (a_result acc a)) -> fst (a_result acc a) = fst (a_result acc b)).

Definition contract : Prop :=
  (forall s, ~ ok s -> (forall r, ~ ok (a_reset acc r s)) /\ (forall i r, ~ ok (a_add acc i r s)) /\
     ~ ok (a_finalize acc s) /\ ~ ok (snd (a_result acc s))) /\
  exists sim fin : S -> S -> Prop,
    (forall r s s', ok s -> ok s' -> alike sim (a_reset acc r s) (a_reset acc r s')) /\
    (forall i r s s', ok s -> ok s' -> sim s s' -> alike sim (a_add acc i r s) (a_add acc i r s')) /\
    (a_kind acc <> Full -> forall s s', ok s -> ok s' -> sim s s' -> same_result sim s s') /\
    (a_kind acc = Full -> forall s s', ok s -> ok s' -> sim s s' -> alike fin (a_finalize acc s) (a_finalize acc s')) /\
    (a_kind acc = Full -> forall s s', ok s -> ok s' -> fin s s' -> same_result fin s s').
End Contract.

(** One array per argument, all of size [n], with contents [ls]. *)
Definition args_rep {A} (opts : list bool) (args : list (darr A)) (ls : list (list (option A))) (n : nat) : Prop :=
  length args = length opts /\ Forall2 represents args ls /\ Forall (fun l => length l = n) ls.

(** Both succeed with the same contents or both return an error. *)
Definition same_outcome {R Err} (a b : group_res R Err) : Prop :=
  match a, b with
  | GOut d, GOut d' => exists l, represents d l /\ represents d' l
  | GError _, GError _ => True
  | _, _ => False
  end.
