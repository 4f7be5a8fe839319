(** Model of arolla/array/{pointwise_op.h, ops_util.h}.  All argument arrays have
    one element type [A], as in DenseOps_Model; [opts] tells which arguments are
    OptionalValue. *)
From Verif Require Import Base Bits_Model Bitmap_Model Dense_Model DenseOps_Model IdFilter_Model GroupOps_Model Array_Model.

Section M.
Context {A : Type}.
Variables (alloc : nat -> list A) (allocw : nat -> list N) (addr : nat).

(** pointwise_op.h:87-90 [CanBeIntersected], ops_util.h:238-241 [BoundsValidIds] *)
Definition bounds_ids (opt : bool) (a : arr A) : bool := negb opt && negb (has_missing_id_value a).
Definition any_bounds (opts : list bool) (args : list (arr A)) : bool :=
  existsb (fun p => bounds_ids (fst p) (snd p)) (combine opts args).

(** pointwise_op.h:102-105, ops_util.h:243-246 [IsSameIdFilter] *)
Definition is_same_filters (args : list (arr A)) : bool :=
  match args with
  | [] => true
  | a :: t => forallb (fun b => is_same (ar_ids a) (ar_ids b)) t
  end.
(** pointwise_op.h:107-110, ops_util.h:248-251 [First] *)
Definition first_ids (args : list (arr A)) : idf :=
  match args with [] => FEmpty | a :: _ => ar_ids a end.

(** pointwise_op.h:65-72, ops_util.h:73-88: the common ids of arguments with
    different filters *)
Definition common_ids (size : nat) (opts : list bool) (args : list (arr A)) : option idf :=
  let filters :=
    if any_bounds opts args
    then map (fun p => if bounds_ids (fst p) (snd p) then ar_ids (snd p) else FFull) (combine opts args)
    else map ar_ids args in
  match filters with
  | [] => None
  | f :: fs => if any_bounds opts args then Some (IdFilter_Model.intersect_all f fs)
               else merge_all (fun _ => addr) size f fs
  end.
(** pointwise_op.h:73-74, ops_util.h:89-91 *)
Fixpoint with_ids_data (args : list (arr A)) (ids : idf) : option (list (darr A)) :=
  match args with
  | [] => Some []
  | a :: t => let? x := with_ids alloc allocw a ids (ar_miss a) in
              let? r := with_ids_data t ids in
              Some (ar_data x :: r)
  end.
(** pointwise_op.h:59-74, ops_util.h:69-92: the ids and the dense data of every
    argument for these ids *)
Definition align (size : nat) (opts : list bool) (args : list (arr A)) : option (idf * list (darr A)) :=
  if is_same_filters args then Some (first_ids args, map ar_data args)
  else let? ids := common_ids size opts args in
       let? ds := with_ids_data args ids in
       Some (ids, ds).

(** ** ArrayPointwiseOp *)
Section Op.
Context {B Err : Type}.
Variable allocb : nat -> list B.
Inductive ar_result := ArMismatch | ArError (e : Err) | ArOk (r : arr B).

(** optional_value.h:371-383 [OptionalFn]: missing if a required argument is *)
Definition wrap_optional (f : fn A B Err) (r : list (option A)) : Err + option B :=
  if forallb (fun p => fst p || present_opt (snd p)) (combine (fn_opts f) r) then
    match fn_eval f r with
    | inl e => inl e
    | inr (p, v) => inr (opt_of p v)
    end
  else inr None.

(** pointwise_op.h:78-83 *)
Definition finish (f : fn A B Err) (args : list (arr A)) (size : nat) (ids : idf) (data : darr B) : ar_result :=
  match wrap_optional f (map ar_miss args) with
  | inl e => ArError e
  | inr m => ArOk (ar_make size ids data m)
  end.

(** pointwise_op.h:50-84.  [fl] are the flags of CreateArrayOp (133-142), which
    adds kNoSizeValidation.  The size of the new data is that of the first argument. *)
Definition array_op (f : fn A B Err) (fl : flags) (args : list (arr A)) : option ar_result :=
  match args with
  | [] => None
  | a :: t =>
      if negb (forallb (fun b => ar_size a =? ar_size b) t) then Some ArMismatch else
      let size := ar_size a in
      if existsb (fun p => negb (fst p) && is_all_missing_form (snd p)) (combine (fn_opts f) args)
      then Some (ArOk (ar_const size None))
      else
        let? x := align size (fn_opts f) args in
        let '(ids, ds) := x in
        if is_same_filters args && is_const_form a then Some (finish f args size ids no_data)
        else
          let n := match ds with [] => 0 | d :: _ => da_size d end in
          let fl' := {| run_on_missing := run_on_missing fl; no_bitmap_offset := no_bitmap_offset fl;
                        no_size_validation := true |} in
          let? r := dense_op f fl' ds (allocb n) (allocw (bitmap_size (n + W))) in
          match r with
          | SizeMismatch => Some ArMismatch
          | FnError e => Some (ArError e)
          | OpOk d => Some (finish f args size ids d)
          end
  end.
End Op.

(** ** ArrayOpsUtil *)
Record outil := { ou_size : nat; ou_opts : list bool; ou_ids : idf; ou_dense : list (darr A);
                  ou_default : option (list (option A)) }.

(** ops_util.h:60-95: constructor.  The default values exist iff default_valid_;
    with ConvertToDense they are never used. *)
Fixpoint dense_forms (args : list (arr A)) : option (list (darr A)) :=
  match args with
  | [] => Some []
  | a :: t => let? x := to_dense_form alloc allocw a in
              let? r := dense_forms t in
              Some (ar_data x :: r)
  end.
Definition ou_make (to_dense : bool) (size : nat) (opts : list bool) (args : list (arr A)) : option outil :=
  if to_dense then
    let? ds := dense_forms args in
    Some {| ou_size := size; ou_opts := opts; ou_ids := FFull; ou_dense := ds; ou_default := None |}
  else
    let? x := align size opts args in
    Some {| ou_size := size; ou_opts := opts; ou_ids := fst x; ou_dense := snd x;
            ou_default := if any_bounds opts args then None else Some (map ar_miss args) |}.

(** The ids and the offset of a filter that is not full: id_filter.h:123-133 *)
Definition raw_ids (f : idf) : list nat := match f with FPartial _ l _ => l | _ => [] end.
Definition raw_off (f : idf) : nat := match f with FPartial _ _ o => o | _ => 0 end.

(** Calls of [fn], [repeated_fn] and [missing_fn]. *)
Inductive ocall := CRow (id : nat) (r : list (option A))
                 | CRepeat (first count : nat) (r : list (option A))
                 | CMiss (first count : nat).

(** ops_util.h:170-176 [defaultFn] *)
Definition default_call (u : outil) (id count : nat) : ocall :=
  match ou_default u with Some r => CRepeat id count r | None => CMiss id count end.
(** ops_util.h:186-195 *)
Definition it_step (u : outil) (st : list ocall * nat) (c : nat * bool * list (option A))
  : option (list ocall * nat) :=
  let '(out, id) := st in
  let '(o, valid, r) := c in
  let? new_id := rd_id (raw_ids (ou_ids u)) (raw_off (ou_ids u)) o in
  let out1 := if id <? new_id then out ++ [default_call u id (new_id - id)] else out in
  Some (out1 ++ [if (valid : bool) then CRow new_id r else CMiss new_id 1], S new_id).

(** ops_util.h:152-199 [Iterate].  An empty list of arguments: 281-296 *)
Definition ou_iterate (u : outil) (from to : nat) : option (list ocall) :=
  match ou_opts u with
  | [] => Some [CRepeat from (to - from) []]
  | _ =>
      match ou_ids u with
      | FFull =>
          let? cs := ops_iterate false from to (combine (ou_opts u) (ou_dense u)) in
          Some (map (fun c : nat * bool * list (option A) =>
                       let '(id, valid, r) := c in if valid then CRow id r else CMiss id 1) cs)
      | f =>
          let offset_from := lower_bound (raw_ids f) (from + raw_off f) in
          let offset_to := lower_bound (raw_ids f) (to + raw_off f) in
          let? cs := ops_iterate false offset_from offset_to (combine (ou_opts u) (ou_dense u)) in
          let? st := fold_opt (it_step u) cs ([], from) in
          let '(out, id) := st in
          Some (if id <? to then out ++ [default_call u id (to - id)] else out)
      end
  end.

(** ops_util.h:113-120: repeated_fn replaced by a loop over fn; 123-125: missing
    rows are skipped *)
Definition rows_of (c : ocall) : list (nat * list (option A)) :=
  match c with
  | CRow id r => [(id, r)]
  | CRepeat first n r => map (fun i => (first + i, r)) (seq 0 n)
  | CMiss _ _ => []
  end.
Definition ou_iterate_fn (u : outil) (from to : nat) : option (list (nat * list (option A))) :=
  let? cs := ou_iterate u from to in Some (flat_map rows_of cs).

(** ops_util.h:217-226 *)
Definition simple_step (u : outil) (st : list (nat * list (option A)) * nat) (c : nat * bool * list (option A))
  : option (list (nat * list (option A)) * nat) :=
  let '(out, id) := st in
  let '(o, valid, r) := c in
  let? new_id := rd_id (raw_ids (ou_ids u)) (raw_off (ou_ids u)) o in
  let out1 := match ou_default u with
              | Some d => out ++ map (fun i => (i, d)) (seq id (new_id - id))
              | None => out
              end in
  Some (if (valid : bool) then out1 ++ [(new_id, r)] else out1, S new_id).
(** ops_util.h:202-233 [IterateSimple]; without arguments: 298-300 *)
Definition ou_iterate_simple (u : outil) : option (list (nat * list (option A))) :=
  match ou_opts u with
  | [] => Some (map (fun i => (i, [])) (seq 0 (ou_size u)))
  | _ =>
      match ou_ids u with
      | FFull =>
          let? cs := iterate_from_zero false (ou_size u) (combine (ou_opts u) (ou_dense u)) in
          Some (flat_map (fun c : nat * bool * list (option A) =>
                            let '(id, valid, r) := c in if valid then [(id, r)] else []) cs)
      | f =>
          let? cs := iterate_from_zero false (length (raw_ids f)) (combine (ou_opts u) (ou_dense u)) in
          let? st := fold_opt (simple_step u) cs ([], 0) in
          let '(out, id) := st in
          Some (match ou_default u with
                | Some d => out ++ map (fun i => (i, d)) (seq id (ou_size u - id))
                | None => out
                end)
      end
  end.

(** ops_util.h:140-146; without arguments: 303 *)
Definition ou_estimate (u : outil) : nat :=
  match ou_opts u with
  | [] => ou_size u
  | _ => match ou_ids u, ou_default u with
         | FFull, _ => ou_size u
         | _, Some _ => ou_size u
         | f, None => length (raw_ids f)
         end
  end.

(** ops_util.h:330-360 [ArraysIterate], [ArraysIterateDense] *)
Definition arrays_iterate (to_dense : bool) (opts : list bool) (args : list (arr A))
  : option (list (nat * list (option A))) :=
  match args with
  | [] => None
  | a :: _ => let? u := ou_make to_dense (ar_size a) opts args in ou_iterate_simple u
  end.
End M.
Arguments ar_result B Err : clear implicits.
Arguments outil A : clear implicits.
Arguments ocall A : clear implicits.
