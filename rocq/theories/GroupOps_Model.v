(** Model of arolla/dense_array/ops/dense_group_ops.h (DenseGroupOpsImpl) and of
    the interface in arolla/qexpr/aggregation_ops_interface.h.
    An accumulator is a state machine.  All parent arguments have one element
    type [P] and all child arguments one element type [C] (think of sums of the
    C++ element types).  Allocation is not modelled; [mem] is the uninitialised
    values buffer of the result builder. *)
From Verif Require Import Base Bits_Model Bitmap_Model Dense_Model DenseOps_Model Edge_Model.

Section G.
Context {S P C R Err : Type}.

(** aggregation_ops_interface.h:72-85 *)
Inductive kind := Aggregator | Partial | Full.

(** aggregation_ops_interface.h:113-152: Reset, Add, FinalizeFullGroup, GetResult
    and GetStatus ([None] is OK).  [a_add] gets the child id only if the
    accumulator is used with ForwardId. *)
Record accum := {
  a_kind : kind;
  a_forward_id : bool;
  a_popts : list bool;  (* which parent arguments are OptionalValue *)
  a_copts : list bool;  (* which child arguments are OptionalValue *)
  a_empty : S;
  a_reset : list (option P) -> S -> S;
  a_add : option nat -> list (option C) -> S -> S;
  a_finalize : S -> S;
  a_result : S -> option R * S;
  a_status : S -> option Err }.

Inductive group_res := GSizeMismatch | GBadSplits | GError (e : Err)
  | GOut (d : darr R) | GScalar (r : option R).

Fixpoint fold_opt {X Y} (f : Y -> X -> option Y) (l : list X) (y : Y) : option Y :=
  match l with
  | [] => Some y
  | x :: t => let? y' := f y x in fold_opt f t y'
  end.

Variable acc : accum.

(** dense_group_ops.h:310-318 [Add] *)
Definition g_add (s : S) (id : nat) (args : list (option C)) : S :=
  a_add acc (if a_forward_id acc then Some id else None) args s.

(** dense_group_ops.h:285-296 (and 112-117, 126-137): the callback for one child
    row; the state is the accumulator, the builder and processed_rows *)
Definition child_step (st : S * dbuilder R * list nat) (c : nat * bool * list (option C))
  : option (S * dbuilder R * list nat) :=
  let '(s, b, rows) := st in
  let '(id, valid, args) := c in
  if (valid : bool) then
    let s1 := g_add s id args in
    match a_kind acc with
    | Aggregator => Some (s1, b, rows)
    | Partial => let '(r, s2) := a_result acc s1 in
                 let? b' := db_set b id r in Some (s2, b', rows)
    | Full => Some (s1, b, rows ++ [id])
    end
  else Some st.

(** dense_group_ops.h:303-305 (and 141-143): GetResult for every processed row *)
Definition draw_step (st : S * dbuilder R) (id : nat) : option (S * dbuilder R) :=
  let '(s, b) := st in
  let '(r, s') := a_result acc s in
  let? b' := db_set b id r in Some (s', b').

(** dense_group_ops.h:275-308 [ProcessSingleGroupWithSplitPoints] *)
Definition process_group (splits : darr Z) (cargs : list (darr C)) (st : S * dbuilder R) (parent : nat)
  : option (S * dbuilder R) :=
  let? from := rd (vals splits) parent in
  let? to := rd (vals splits) (parent + 1) in
  let? _ := guard ((0 <=? from)%Z && (from <=? to)%Z) in
  let? calls := ops_iterate false (Z.to_nat from) (Z.to_nat to) (combine (a_copts acc) cargs) in
  let? x := fold_opt child_step calls (st, []) in
  let '(s, b, rows) := x in
  match a_kind acc with
  | Aggregator => draw_step (s, b) parent
  | Partial => Some (s, b)
  | Full => fold_opt draw_step rows (a_finalize acc s, b)
  end.

Definition finish (s : S) (b : dbuilder R) : group_res :=
  match a_status acc s with
  | Some e => GError e
  | None => GOut (db_build b)
  end.

(** dense_group_ops.h:244-273 [ApplyWithSplitPoints] *)
Definition apply_splits (parents : nat) (splits : darr Z) (pargs : list (darr P)) (cargs : list (darr C))
  (mem : list R) : option group_res :=
  if negb (da_size splits =? parents + 1) then Some GBadSplits else
  let? calls := iterate_from_zero false parents (combine (a_popts acc) pargs) in
  let? x := fold_opt (fun (st : S * dbuilder R) (c : nat * bool * list (option P)) =>
      let '(parent, valid, args) := c in
      if (valid : bool) then process_group splits cargs (a_reset acc args (fst st), snd st) parent
      else Some st) calls (a_empty acc, db_init mem) in
  Some (finish (fst x) (snd x)).

(** The mapping is the first, required, argument of MappingAndChildUtil (line
    162): arrays of different element types are put into one sum type. *)
Definition da_map {A B} (f : A -> B) (a : darr A) : darr B := mkD (map f (vals a)) (bmp a) (boff a).
Definition from_inr {A B} (x : option (A + B)) : option B :=
  match x with Some (inr b) => Some b | _ => None end.

(** dense_group_ops.h:171-177: Reset the accumulators of valid groups *)
Definition reset_step (st : list S * list bool) (c : nat * bool * list (option P))
  : option (list S * list bool) :=
  let '(accs, valids) := st in
  let '(g, valid, args) := c in
  let? accs' := if (valid : bool) then let? s := rd accs g in upd accs g (a_reset acc args s)
                else Some accs in
  let? valids' := upd valids g valid in
  Some (accs', valids').

(** dense_group_ops.h:190-206 [process_child_row_fn] *)
Definition mapped_step (valids : list bool) (st : list S * dbuilder R * list bool)
  (c : nat * bool * list (option (Z + C))) : option (list S * dbuilder R * list bool) :=
  let '(accs, b, done) := st in
  let '(id, valid, row) := c in
  if (valid : bool) then
    match row with
    | Some (inl parent) :: args =>
        let? vg := rdz valids parent in
        if (vg : bool) then
          let g := Z.to_nat parent in
          let? s := rd accs g in
          let s1 := g_add s id (map from_inr args) in
          match a_kind acc with
          | Aggregator => let? accs' := upd accs g s1 in Some (accs', b, done)
          | Partial => let '(r, s2) := a_result acc s1 in
                       let? accs' := upd accs g s2 in
                       let? b' := db_set b id r in
                       Some (accs', b', done)
          | Full => let? accs' := upd accs g s1 in
                    let? done' := upd done id true in
                    Some (accs', b, done')
          end
        else Some st
    | _ => None
    end
  else Some st.

(** dense_group_ops.h:212-216: FinalizeFullGroup of valid groups *)
Fixpoint finalize_all (valids : list bool) (accs : list S) : list S :=
  match valids, accs with
  | v :: vs, s :: ss => (if (v : bool) then a_finalize acc s else s) :: finalize_all vs ss
  | _, _ => accs
  end.
(** dense_group_ops.h:217-225 *)
Definition full_step (mapping : darr Z) (done : list bool) (st : list S * dbuilder R) (id : nat)
  : option (list S * dbuilder R) :=
  let '(accs, b) := st in
  let? d := rd done id in
  if (d : bool) then
    let? parent := rd (vals mapping) id in
    let? s := rdz accs parent in
    let '(r, s') := a_result acc s in
    let? accs' := upd accs (Z.to_nat parent) s' in
    let? b' := db_set b id r in
    Some (accs', b')
  else Some st.

(** dense_group_ops.h:228-235: aggregator results and statuses of valid groups;
    [inl] is the returned error *)
Fixpoint collect_groups (valids : list bool) (accs : list S) (b : dbuilder R) (parent n : nat)
  : option (Err + dbuilder R) :=
  match n with
  | O => Some (inr b)
  | Datatypes.S n' =>
      let? v := rd valids parent in
      if (v : bool) then
        let? s := rd accs parent in
        let? x := match a_kind acc with
                  | Aggregator => draw_step (s, b) parent
                  | _ => Some (s, b)
                  end in
        match a_status acc (fst x) with
        | Some e => Some (inl e)
        | None => collect_groups valids accs (snd x) (Datatypes.S parent) n'
        end
      else collect_groups valids accs b (Datatypes.S parent) n'
  end.

(** dense_group_ops.h:154-238 [ApplyWithMapping] *)
Definition apply_mapping (parents children : nat) (mapping : darr Z) (pargs : list (darr P))
  (cargs : list (darr C)) (mem : list R) : option group_res :=
  let? pcalls := iterate_from_zero false parents (combine (a_popts acc) pargs) in
  let? g := fold_opt reset_step pcalls (repeat (a_empty acc) parents, repeat false parents) in
  let '(accs0, valids) := g in
  let? ccalls := ops_iterate false 0 children
    (combine (false :: a_copts acc) (da_map inl mapping :: map (da_map inr) cargs)) in
  let? st := fold_opt (mapped_step valids) ccalls (accs0, db_init mem, repeat false children) in
  let '(accs1, b1, done) := st in
  let? f := match a_kind acc with
            | Full => fold_opt (full_step mapping done) (seq 0 children) (finalize_all valids accs1, b1)
            | _ => Some (accs1, b1)
            end in
  let? r := collect_groups valids (fst f) (snd f) 0 parents in
  match r with
  | inl e => Some (GError e)
  | inr b => Some (GOut (db_build b))
  end.

(** dense_group_ops.h:77-100 [Apply] with a DenseArrayEdge.  The result builder
    has one row per parent for aggregators and one row per child otherwise;
    [alloc n] is an uninitialised buffer of [n] values. *)
Definition apply_edge (alloc : nat -> list R) (e : edge) (pargs : list (darr P)) (cargs : list (darr C))
  : option group_res :=
  if existsb (fun a => negb (Z.of_nat (da_size a) =? e_parent e)%Z) pargs then Some GSizeMismatch else
  if existsb (fun a => negb (Z.of_nat (da_size a) =? e_child e)%Z) cargs then Some GSizeMismatch else
  let parents := Z.to_nat (e_parent e) in
  let children := Z.to_nat (e_child e) in
  let mem := alloc (match a_kind acc with Aggregator => parents | _ => children end) in
  if e_split e then apply_splits parents (e_vals e) pargs cargs mem
  else apply_mapping parents children (e_vals e) pargs cargs mem.

(** dense_group_ops.h:102-148 [Apply] with a DenseArrayGroupScalarEdge of
    [children] children; the parent arguments are scalars *)
Definition apply_scalar (alloc : nat -> list R) (children : nat) (prow : list (option P)) (cargs : list (darr C))
  : option group_res :=
  if existsb (fun a => negb (da_size a =? children)) cargs then Some GSizeMismatch else
  let s0 := a_reset acc prow (a_empty acc) in
  let? calls := ops_iterate false 0 children (combine (a_copts acc) cargs) in
  match a_kind acc with
  | Aggregator =>
      let? x := fold_opt child_step calls (s0, db_init [], []) in
      let '(r, s) := a_result acc (fst (fst x)) in
      Some (match a_status acc s with Some e => GError e | None => GScalar r end)
  | k =>
      let? x := fold_opt child_step calls (s0, db_init (alloc children), []) in
      let '(s, b, rows) := x in
      let? y := match k with
                | Full => fold_opt draw_step rows (a_finalize acc s, b)
                | _ => Some (s, b)
                end in
      Some (finish (fst y) (snd y))
  end.
End G.
Arguments accum : clear implicits.
Arguments group_res : clear implicits.

(** ** An accumulator: qexpr/operators/aggregation/group_op_accumulators.h:416-461
    [InverseMappingAccumulator], used as array.inverse_mapping.  Its state is
    return_id_, permutation_, inv_permutation_ and status_; reading
    inv_permutation_ out of range, which the group operators never do, gives a
    missing value here. *)
Record im_state := { im_ret : nat; im_perm : list (option Z); im_inv : list (option Z); im_status : option Z }.
(** lines 428-450: the loop of FinalizeFullGroup from index [i]; stops at the
    first bad value *)
Fixpoint im_loop (size : nat) (perm : list (option Z)) (i : nat) (inv : list (option Z)) : list (option Z) * option Z :=
  match perm with
  | [] => (inv, None)
  | None :: t => im_loop size t (S i) inv
  | Some v :: t =>
      if (v <? 0)%Z || (Z.of_nat size <=? v)%Z then (inv, Some v) else
      match nth (Z.to_nat v) inv None with
      | Some _ => (inv, Some v)
      | None => im_loop size t (S i) (firstn (Z.to_nat v) inv ++ Some (Z.of_nat i) :: skipn (S (Z.to_nat v)) inv)
      end
  end.
Definition inverse_mapping_acc : accum im_state unit Z Z Z :=
  {| a_kind := Full; a_forward_id := false; a_popts := []; a_copts := [true];
     a_empty := {| im_ret := 0; im_perm := []; im_inv := []; im_status := None |};
     a_reset := fun _ s => {| im_ret := im_ret s; im_perm := []; im_inv := im_inv s; im_status := im_status s |};
     a_add := fun _ r s => {| im_ret := im_ret s; im_perm := im_perm s ++ [hd None r]; im_inv := im_inv s; im_status := im_status s |};
     a_finalize := fun s =>
       let size := length (im_perm s) in
       let '(inv, err) := im_loop size (im_perm s) 0 (repeat None size) in
       {| im_ret := 0; im_perm := im_perm s; im_inv := inv;
          im_status := match err with Some e => Some e | None => im_status s end |};
     a_result := fun s => (nth (im_ret s) (im_inv s) None,
       {| im_ret := S (im_ret s); im_perm := im_perm s; im_inv := im_inv s; im_status := im_status s |});
     a_status := im_status |}.
