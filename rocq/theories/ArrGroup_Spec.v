(** What a group operator on Arrays must compute: the same outputs as the dense
    one ([outputs], [first_error], [scalar_out] in GroupOps_Spec), whatever form
    the edge and the arguments have. *)
From Verif Require Import Base Dense_Model Dense_Spec DenseOps_Spec Array_Model Array_Spec
  GroupOps_Model GroupOps_Spec ArrGroup_Model.

(** AddN(n, args) is n times Add(args) (aggregation_ops_interface.h:119-129): for
    rows with all required values, and for n = 0 only if there are no arguments. *)
Definition lawful {S P C R Err} (acc : accum S P C R Err) (addn : nat -> list (option C) -> S -> S) : Prop :=
  a_forward_id acc = false -> forall n r s, row_defined (a_copts acc) r = true -> 0 < n \/ a_copts acc = [] ->
    addn n r s = Nat.iter n (a_add acc None r) s.

(** One array per argument, all of size [n], with contents [ls]. *)
Definition aargs_rep {A} (opts : list bool) (args : list (arr A)) (ls : list (list (option A))) (n : nat) : Prop :=
  length args = length opts /\ Forall2 ar_rep args ls /\ Forall (fun l => length l = n) ls.

Definition array_outcome {R Err} (failed : option Err) (out : list (option R)) (res : ag_res R Err) : Prop :=
  match failed with
  | Some _ => exists e, res = AGError e
  | None => exists a, res = AGOut a /\ ar_rep a out
  end.

(** One group with all the children. *)
Definition array_scalar_outcome {S P C R Err} (acc : accum S P C R Err) (cls : list (list (option C))) (n : nat) (prow : list (option P))
  (res : ag_res R Err) : Prop :=
  match a_status acc (group_final acc cls (start acc prow) (all_members acc cls n)) with
  | Some e => res = AGError e
  | None => match a_kind acc with
            | Aggregator => res = AGScalar (aggregate acc cls (start acc prow) (all_members acc cls n))
            | _ => exists a, res = AGOut a /\ ar_rep a (map (scalar_out acc cls n prow) (seq 0 n))
            end
  end.

(** Both succeed with the same elements or both return an error. *)
Definition same_array_outcome {R Err} (a b : ag_res R Err) : Prop :=
  match a, b with
  | AGOut x, AGOut y => exists l, ar_rep x l /\ ar_rep y l
  | AGError _, AGError _ => True
  | _, _ => False
  end.
(** The same for the operator on DenseArrays. *)
Definition agrees_with_dense {R Err} (a : ag_res R Err) (b : group_res R Err) : Prop :=
  match a, b with
  | AGOut x, GOut y => exists l, ar_rep x l /\ represents y l
  | AGError _, GError _ => True
  | _, _ => False
  end.

(** New buffers. *)
Definition new_buffers {P C R} (allocp : nat -> list P) (allocc : nat -> list C) (allocm : nat -> list (Z + C))
  (allocr : nat -> list R) (allocz : nat -> list Z) (allocw : nat -> list N) : Prop :=
  alloc_sz allocp /\ alloc_sz allocc /\ alloc_sz allocm /\ alloc_sz allocr /\ alloc_sz allocz /\ allocw_ok allocw.
