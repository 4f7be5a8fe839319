(** What evaluating a forest on arrays means. *)
From Verif Require Import Base Forest_Model Forest_Spec ForestEv_Model ForestEv_Spec Dense_Model Array_Model FrameIter_Model FrameIter_Spec ForestBt_Model.

(** The row [i] of the columns of the inputs. *)
Definition input_row {V} (asf : V -> f32) (cols : nat -> list (option (bval V))) (i : nat) : Forest_Model.frame :=
  {| in_f32 := fun j => match nth i (cols j) None with Some (BF x) => Some x | Some (BV y) => Some (asf y) | _ => None end;
     in_i64 := fun j => match nth i (cols j) None with Some (BI z) | Some (BO z) => Some z | _ => None end |}.
(** Conditions only read the inputs that they declare. *)
Definition others_local (ot : others) : Prop :=
  forall k fr fr', (forall j ty, In (j, ty) (o_sig ot k) -> in_f32 fr j = in_f32 fr' j /\ in_i64 fr j = in_i64 fr' j) -> o_eval ot k fr = o_eval ot k fr'.
(** The number of split nodes. *)
Definition splits {V} (ts : list (tree V)) : Z := Z.of_nat (list_sum (map (fun t => length (t_nodes t)) ts)).

Section spec.
Context {V : Type}.
Variable ot : others.
Variable oty : nat -> nat * bool.
(** Each used input has a slot with an array of [n] rows of its type; an input that is not
    optional is a DenseArray without missing values. *)
Definition inputs_ok (ts : list (tree V)) (inputs : list (nat * nat)) (mem : list (src (bval V))) (cols : nat -> list (option (bval V))) (n : nat) : Prop :=
  forall j ty, uses ot ts j ty -> exists s a, nth_error inputs j = Some (s, fst (tag oty ty)) /\ nth_error mem s = Some a /\
  column a (cols j) /\ length (cols j) = n /\
  (snd (tag oty ty) = false -> (exists d, a = SD _ d) /\ Forall (fun x => x <> None) (cols j)).
(** The number of rows is given, or known from an input. *)
Definition rows_known (ts : list (tree V)) (inputs : list (nat * nat)) (mem : list (src (bval V))) (want : option nat) (n : nat) : Prop :=
  want = Some n \/
  want = None /\ ((exists j ty, uses ot ts j ty) \/ exists s ty r a, inputs = (s, ty) :: r /\ nth_error mem s = Some a /\ src_size _ a = n).
(** Distinct slots for float arrays. *)
Definition outputs_ok (groups : list tfilter) (outs : list aslot) (mem : list (src (bval V))) : Prop :=
  length outs = length groups /\ NoDup (map as_id outs) /\ forall o, In o outs -> as_ty o = 0 /\ as_id o < length mem.
(** No output slot is also the slot of a used input. *)
Definition not_inputs (ts : list (tree V)) (inputs : list (nat * nat)) (outs : list aslot) : Prop :=
  forall j ty s k, uses ot ts j ty -> nth_error inputs j = Some (s, k) -> ~ In s (map as_id outs).
(** An array of [n] values, all present, of which [P] holds. *)
Definition output_array (kind : bool) (n : nat) (P : nat -> V -> Prop) (a : src (bval V)) : Prop :=
  is_arr _ a = kind /\ exists ys, length ys = n /\ column a (map (fun y => Some (BV y)) ys) /\ forall i y, nth_error ys i = Some y -> P i y.
(** All outputs are stored and nothing else. *)
Definition stored (groups : list tfilter) (outs : list aslot) (n : nat) (P : tfilter -> nat -> V -> Prop) (mem mem' : list (src (bval V))) : Prop :=
  length mem' = length mem /\ (forall s, ~ In s (map as_id outs) -> nth_error mem' s = nth_error mem s) /\
  forall g f o, nth_error groups g = Some f -> nth_error outs g = Some o ->
  exists a, nth_error mem' (as_id o) = Some a /\ output_array (as_arr o) n (P f) a.
End spec.
