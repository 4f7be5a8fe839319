(** Model of arolla/array/group_op.h (ArrayGroupOpImpl).  Accumulators are as in
    GroupOps_Model, plus AddN.  [allocp], [allocc], [allocm], [allocr] are new
    buffers of parent values, child values, parent ids with child values, and
    results; [allocz] of edge values, [allocw] of bitmap words and [addr] the
    address of a new buffer of ids. *)
From Verif Require Import Base Bits_Model Bitmap_Model Dense_Model DenseOps_Model IdFilter_Model Array_Model
  Edge_Model GroupOps_Model ArrOps_Model ArrEdge_Model Search_Model.

(** Arrays of different element types are put into one sum type (as [da_map]). *)
Definition ar_map {A B} (f : A -> B) (a : arr A) : arr B :=
  {| ar_size := ar_size a; ar_ids := ar_ids a; ar_data := da_map f (ar_data a); ar_miss := option_map f (ar_miss a) |}.

Section M.
Context {S P C R Err : Type}.
Variables (allocp : nat -> list P) (allocc : nat -> list C) (allocm : nat -> list (Z + C)) (allocr : nat -> list R)
  (allocz : nat -> list Z) (allocw : nat -> list N) (addr : nat).
Variable acc : accum S P C R Err.
(** aggregation_ops_interface.h:119-129 [AddN] *)
Variable addn : nat -> list (option C) -> S -> S.

Inductive ag_res := AGMismatch | AGBadSplits | AGError (e : Err) | AGOut (a : arr R) | AGScalar (r : option R).

Definition of_dense (r : group_res R Err) : ag_res :=
  match r with
  | GSizeMismatch => AGMismatch
  | GBadSplits => AGBadSplits
  | GError e => AGError e
  | GOut d => AGOut (ar_dense d)
  | GScalar r => AGScalar r
  end.

(** RETURN_IF_ERROR(accumulator.GetStatus()) and building the result *)
Definition checked (s : S) (r : option (arr R)) : option ag_res :=
  match a_status acc s with
  | Some e => Some (AGError e)
  | None => let? a := r in Some (AGOut a)
  end.
Definition dense_out (b : dbuilder R) : option (arr R) := Some (ar_dense (db_build b)).

(** group_op.h:602-611 [AddN] *)
Definition g_addn (s : S) (first count : nat) (args : list (option C)) : S :=
  if a_forward_id acc then fold_left (fun s i => g_add acc s (first + i) args) (seq 0 count) s
  else addn count args s.
(** group_op.h:441-447: fn, repeated_fn and empty_missing_fn *)
Definition call_step (s : S) (c : ocall C) : S :=
  match c with
  | CRow id r => g_add acc s id r
  | CRepeat first count r => g_addn s first count r
  | CMiss _ _ => s
  end.
(** group_op.h:438-449 [AggregateSingleGroup] *)
Definition aggregate_group (cu : outil C) (from to : nat) (s : S) : option S :=
  let? cs := ou_iterate cu from to in Some (fold_left call_step cs s).

(** splits[parent_id], splits[parent_id + 1] *)
Definition group_range (splits : list Z) (parent : nat) : option (nat * nat) :=
  let? from := rd splits parent in
  let? to := rd splits (parent + 1) in
  let? _ := guard ((0 <=? from)%Z && (from <=? to)%Z) in
  Some (Z.to_nat from, Z.to_nat to).

(** group_op.h:419-436 [ApplyAggregatorWithSplitPoints] *)
Definition agg_group (cu : outil C) (splits : list Z) (st : S * dbuilder R) (row : nat * list (option P))
  : option (S * dbuilder R) :=
  let '(s, b) := st in
  let '(parent, args) := row in
  let? r := group_range splits parent in
  let? s1 := aggregate_group cu (fst r) (snd r) (a_reset acc args s) in
  draw_step acc (s1, b) parent.
Definition agg_splits (pu : outil P) (cu : outil C) (splits : list Z) : option ag_res :=
  let? rows := ou_iterate_simple pu in
  let? x := fold_opt (agg_group cu splits) rows (a_empty acc, db_init (allocr (ou_size pu))) in
  checked (fst x) (dense_out (snd x)).

(** group_op.h:518-551 [ApplyDenseWithSplitPoints] *)
Definition dense_group (cu : outil C) (splits : list Z) (st : S * dbuilder R) (row : nat * list (option P))
  : option (S * dbuilder R) :=
  let '(s, b) := st in
  let '(parent, args) := row in
  let? r := group_range splits parent in
  let? rows := ou_iterate_fn cu (fst r) (snd r) in
  let? x := fold_opt (child_step acc) (map (fun c => (fst c, true, snd c)) rows) (a_reset acc args s, b, []) in
  let '(s1, b1, processed) := x in
  match a_kind acc with
  | Full => fold_opt (draw_step acc) processed (a_finalize acc s1, b1)
  | _ => Some (s1, b1)
  end.
Definition dense_splits (pu : outil P) (cu : outil C) (splits : list Z) : option ag_res :=
  let? rows := ou_iterate_simple pu in
  let? x := fold_opt (dense_group cu splits) rows (a_empty acc, db_init (allocr (ou_size cu))) in
  checked (fst x) (dense_out (snd x)).

(** group_op.h:564-570, 226-232: the callback for one child row, sparse builder *)
Definition schild_step (st : S * sbuilder R) (c : nat * list (option C)) : option (S * sbuilder R) :=
  let '(s, b) := st in
  let '(id, args) := c in
  let s1 := g_add acc s id args in
  let? x := match a_kind acc with
            | Partial => let '(r, s2) := a_result acc s1 in
                         let? b1 := sb_set b (length (sb_ids b)) r in Some (s2, b1)
            | _ => Some (s1, b)
            end in
  let? b2 := sb_add_id (snd x) id in
  Some (fst x, b2).
(** group_op.h:580-582, 236-238 *)
Definition sdraw_step (st : S * sbuilder R) (o : nat) : option (S * sbuilder R) :=
  let '(s, b) := st in
  let '(r, s') := a_result acc s in
  let? b' := sb_set b o r in Some (s', b').
(** group_op.h:556-589 [ApplySparseWithSplitPoints] *)
Definition sparse_group (cu : outil C) (splits : list Z) (st : S * sbuilder R) (row : nat * list (option P))
  : option (S * sbuilder R) :=
  let '(s, b) := st in
  let '(parent, args) := row in
  let? r := group_range splits parent in
  let offset := length (sb_ids b) in
  let? rows := ou_iterate_fn cu (fst r) (snd r) in
  let? x := fold_opt schild_step rows (a_reset acc args s, b) in
  let '(s1, b1) := x in
  match a_kind acc with
  | Full => fold_opt sdraw_step (seq offset (length (sb_ids b1) - offset)) (a_finalize acc s1, b1)
  | _ => Some (s1, b1)
  end.
Definition sparse_splits (pu : outil P) (cu : outil C) (splits : list Z) : option ag_res :=
  let? rows := ou_iterate_simple pu in
  let? x := fold_opt (sparse_group cu splits) rows (a_empty acc, sb_init allocr (ou_size cu) (ou_estimate cu)) in
  checked (fst x) (sb_build addr (snd x)).

(** group_op.h:461-514 [ApplyAggregatorWithSplitPointsOnVerySparseData].  The
    state is next_parent_id, the accumulator, status, the ids and the dense
    builder; res_offset is the number of ids. *)
Record vstate := { v_next : nat; v_acc : S; v_status : option Err; v_ids : list nat; v_dense : dbuilder R }.
(** lines 483-491 [add_previous_to_results] *)
Definition add_previous (max : nat) (v : vstate) : option vstate :=
  match v_next v, v_status v with
  | Datatypes.S prev, None =>
      let? ids := push max (v_ids v) prev in
      let '(r, s) := a_result acc (v_acc v) in
      let? d := db_set (v_dense v) (length (v_ids v)) r in
      Some {| v_next := v_next v; v_acc := a_reset acc [] s; v_status := a_status acc s; v_ids := ids; v_dense := d |}
  | _, _ => Some v
  end.
(** lines 493-502; [child_id >= splits[next_parent_id]], GallopingLowerBound over
    the split points from next_parent_id on *)
Definition v_step (max : nat) (splits : list Z) (v : vstate) (c : nat * list (option C)) : option vstate :=
  let '(id, args) := c in
  let? x := rd splits (v_next v) in
  let? v1 :=
    if (x <=? Z.of_nat id)%Z then
      let? v' := add_previous max v in
      let? next := galloping_lower_bound (fun y => y <? Z.of_nat id + 1)%Z splits (v_next v') (length splits) in
      Some {| v_next := next; v_acc := v_acc v'; v_status := v_status v'; v_ids := v_ids v'; v_dense := v_dense v' |}
    else Some v in
  Some {| v_next := v_next v1; v_acc := g_add acc (v_acc v1) id args; v_status := v_status v1;
          v_ids := v_ids v1; v_dense := v_dense v1 |}.
Definition very_sparse_splits (parents : nat) (cu : outil C) (splits : list Z) : option ag_res :=
  let max := Nat.min parents (ou_estimate cu) in
  let? rows := ou_iterate_simple cu in
  let? v := fold_opt (v_step max splits) rows
    {| v_next := 0; v_acc := a_reset acc [] (a_empty acc); v_status := None; v_ids := [];
       v_dense := db_init (allocr max) |} in
  let? v := add_previous max v in
  match v_status v with
  | Some e => Some (AGError e)
  | None =>
      let build (miss : option R) :=
        let? d := db_build_size (v_dense v) (length (v_ids v)) in
        Some (ar_make parents (mk_filter parents addr (v_ids v) 0) d miss) in
      if length (v_ids v) <? parents then
        let '(r, s) := a_result acc (v_acc v) in checked s (build r)
      else let? a := build None in Some (AGOut a)
  end.

(** ** Mapping *)
(** group_op.h:262-266: Reset the accumulators of valid parents *)
Definition areset_step (st : list S * list bool) (row : nat * list (option P)) : option (list S * list bool) :=
  let '(accs, valids) := st in
  let '(g, args) := row in
  let? s := rd accs g in
  let? accs' := upd accs g (a_reset acc args s) in
  let? valids' := upd valids g true in
  Some (accs', valids').

(** group_op.h:389-402: aggregators are updated even for parents that are not valid *)
Definition agg_or_partial_step (valids : list bool) (st : list S * dbuilder R) (c : nat * list (option (Z + C)))
  : option (list S * dbuilder R) :=
  let '(accs, b) := st in
  match snd c with
  | Some (inl parent) :: args =>
      let? s := rdz accs parent in
      match a_kind acc with
      | Aggregator => let? accs' := upd accs (Z.to_nat parent) (g_add acc s (fst c) (map from_inr args)) in
                      Some (accs', b)
      | _ =>
          let? vg := rdz valids parent in
          if (vg : bool) then
            let '(r, s') := a_result acc (g_add acc s (fst c) (map from_inr args)) in
            let? accs' := upd accs (Z.to_nat parent) s' in
            let? b' := db_set b (fst c) r in
            Some (accs', b')
          else Some st
      end
  | _ => None
  end.
(** group_op.h:381-417 [ApplyAggregatorOrDensePartialWithMapping]; the last loop
    is [collect_groups] *)
Definition agg_or_partial_mapping (parents : nat) (mu : outil (Z + C)) (accs : list S) (valids : list bool) : option ag_res :=
  let? rows := ou_iterate_simple mu in
  let size := match a_kind acc with Aggregator => parents | _ => ou_size mu end in
  let? x := fold_opt (agg_or_partial_step valids) rows (accs, db_init (allocr size)) in
  let? r := collect_groups acc valids (fst x) (snd x) 0 parents in
  match r with
  | inl e => Some (AGError e)
  | inr b => let? a := dense_out b in Some (AGOut a)
  end.

(** group_op.h:282-295 *)
Definition smapped_step (valids : list bool) (st : list S * sbuilder R * list Z) (c : nat * list (option (Z + C)))
  : option (list S * sbuilder R * list Z) :=
  let '(accs, b, pids) := st in
  match snd c with
  | Some (inl parent) :: args =>
      let? vg := rdz valids parent in
      if (vg : bool) then
        let? s := rdz accs parent in
        let s1 := g_add acc s (fst c) (map from_inr args) in
        let? x := match a_kind acc with
                  | Partial => let '(r, s2) := a_result acc s1 in
                               let? b1 := sb_set b (length (sb_ids b)) r in Some (s2, b1, pids)
                  | _ => Some (s1, b, pids ++ [parent])
                  end in
        let '(s2, b1, pids') := x in
        let? accs' := upd accs (Z.to_nat parent) s2 in
        let? b2 := sb_add_id b1 (fst c) in
        Some (accs', b2, pids')
      else Some st
  | _ => None
  end.
(** group_op.h:305-308 *)
Definition sfull_step (pids : list Z) (st : list S * sbuilder R) (o : nat) : option (list S * sbuilder R) :=
  let '(accs, b) := st in
  let? parent := rd pids o in
  let? s := rdz accs parent in
  let '(r, s') := a_result acc s in
  let? accs' := upd accs (Z.to_nat parent) s' in
  let? b' := sb_set b o r in
  Some (accs', b').
(** group_op.h:311-318: the first error of a valid parent *)
Fixpoint status_all (valids : list bool) (accs : list S) : option Err :=
  match valids, accs with
  | v :: vs, s :: ss =>
      match (if (v : bool) then a_status acc s else None) with
      | Some e => Some e
      | None => status_all vs ss
      end
  | _, _ => None
  end.
(** group_op.h:253-321 [ApplyWithMapping] *)
Definition with_mapping (pu : outil P) (mu : outil (Z + C)) : option ag_res :=
  let parents := ou_size pu in
  let? prows := ou_iterate_simple pu in
  let? g := fold_opt areset_step prows (repeat (a_empty acc) parents, repeat false parents) in
  let '(accs, valids) := g in
  let aggregator := match a_kind acc with Aggregator => true | _ => false end in
  let partial := match a_kind acc with Partial => true | _ => false end in
  if aggregator || (partial && (ou_size mu <? 4 * ou_estimate mu))
  then agg_or_partial_mapping parents mu accs valids
  else
    let? rows := ou_iterate_simple mu in
    let? x := fold_opt (smapped_step valids) rows (accs, sb_init allocr (ou_size mu) (ou_estimate mu), []) in
    let '(accs1, b1, pids) := x in
    let? y := match a_kind acc with
              | Full => fold_opt (sfull_step pids) (seq 0 (length (sb_ids b1))) (finalize_all acc valids accs1, b1)
              | _ => Some (accs1, b1)
              end in
    match status_all valids (fst y) with
    | Some e => Some (AGError e)
    | None => let? a := sb_build addr (snd y) in Some (AGOut a)
    end.

(** group_op.h:332-379 [ApplyAggregatorWithMappingOnVerySparseData]: a hash map
    from parent ids to accumulators.  [order] is the order in which the map is
    iterated. *)
Variable order : list (Z * S) -> list (Z * S).
(** lines 340-345: find or emplace and Reset, then Add *)
Fixpoint hm_add (m : list (Z * S)) (parent : Z) (id : nat) (args : list (option C)) : list (Z * S) :=
  match m with
  | [] => [(parent, g_add acc (a_reset acc [] (a_empty acc)) id args)]
  | (k, s) :: t => if (k =? parent)%Z then (k, g_add acc s id args) :: t else (k, s) :: hm_add t parent id args
  end.
Definition hm_step (m : list (Z * S)) (c : nat * list (option (Z + C))) : option (list (Z * S)) :=
  match snd c with
  | Some (inl parent) :: args => Some (hm_add m parent (fst c) (map from_inr args))
  | _ => None
  end.
(** lines 352-355 *)
Fixpoint hm_results (m : list (Z * S)) : Err + list (Z * option R) :=
  match m with
  | [] => inr []
  | (k, s) :: t =>
      let '(r, s') := a_result acc s in
      match a_status acc s' with
      | Some e => inl e
      | None => match hm_results t with inl e => inl e | inr l => inr ((k, r) :: l) end
      end
  end.
(** lines 356-357: std::sort by id; the ids are distinct *)
Fixpoint insert_result (x : Z * option R) (l : list (Z * option R)) : list (Z * option R) :=
  match l with
  | [] => [x]
  | y :: t => if (fst x <? fst y)%Z then x :: l else y :: insert_result x t
  end.
Definition sort_results (l : list (Z * option R)) : list (Z * option R) := fold_right insert_result [] l.
(** lines 359-366 *)
Definition fill_step (max : nat) (st : list nat * dbuilder R) (x : Z * option R) : option (list nat * dbuilder R) :=
  let '(ids, b) := st in
  let? _ := guard (0 <=? fst x)%Z in
  let? ids' := push max ids (Z.to_nat (fst x)) in
  let? b' := db_set b (length ids) (snd x) in
  Some (ids', b').
Definition very_sparse_mapping (parents : nat) (mu : outil (Z + C)) : option ag_res :=
  let? rows := ou_iterate_simple mu in
  let? m := fold_opt hm_step rows [] in
  match hm_results (order m) with
  | inl e => Some (AGError e)
  | inr results =>
      let? x := fold_opt (fill_step (length m)) (sort_results results) ([], db_init (allocr (length m))) in
      let build (miss : option R) :=
        Some (ar_make parents (mk_filter parents addr (fst x) 0) (db_build (snd x)) miss) in
      if length m <? parents then
        let '(r, s) := a_result acc (a_reset acc [] (a_empty acc)) in checked s (build r)
      else let? a := build None in Some (AGOut a)
  end.

(** ** Apply *)
(** array.h [IsDenseForm] of every array *)
Definition all_dense {A} (args : list (arr A)) : bool := forallb is_dense_form args.

(** group_op.h:105-175 [Apply] with an ArrayEdge; [use_dense] is UseDenseGroupOps.
    The thresholds are 0.25 of a size (kNonEmptyGroupProbLimit, kDenseSparsityLimit). *)
Definition apply_array (use_dense : bool) (e : aedge) (pargs : list (arr P)) (cargs : list (arr C)) : option ag_res :=
  if use_dense && is_dense_form (ae_vals e) && all_dense pargs && all_dense cargs then
    let? d := ae_to_dense allocz allocw e in
    let? r := apply_edge acc allocr d (map ar_data pargs) (map ar_data cargs) in
    Some (of_dense r)
  else
  if existsb (fun a => negb (Z.of_nat (ar_size a) =? ae_parent e)%Z) pargs then Some AGMismatch else
  if existsb (fun a => negb (Z.of_nat (ar_size a) =? ae_child e)%Z) cargs then Some AGMismatch else
  let parents := Z.to_nat (ae_parent e) in
  let children := Z.to_nat (ae_child e) in
  let no_parent_args := match a_popts acc with [] => true | _ => false end in
  if ae_split e then
    let splits := vals (ar_data (ae_vals e)) in
    let? cu := ou_make allocc allocw addr false children (a_copts acc) cargs in
    match a_kind acc with
    | Aggregator =>
        if no_parent_args && (4 * ou_estimate cu <? parents)
        then very_sparse_splits parents cu splits
        else
          let? pu := ou_make allocp allocw addr true parents (a_popts acc) pargs in
          agg_splits pu cu splits
    | _ =>
        let? pu := ou_make allocp allocw addr true parents (a_popts acc) pargs in
        if children <? 4 * ou_estimate cu then dense_splits pu cu splits else sparse_splits pu cu splits
    end
  else
    let? mu := ou_make allocm allocw addr false children (false :: a_copts acc)
                 (ar_map inl (ae_vals e) :: map (ar_map inr) cargs) in
    let very_sparse := match a_kind acc with Aggregator => no_parent_args | _ => false end in
    if very_sparse && (4 * ou_estimate mu <? parents)
    then very_sparse_mapping parents mu
    else
      let? pu := ou_make allocp allocw addr true parents (a_popts acc) pargs in
      with_mapping pu mu.

(** group_op.h:181-250 [Apply] with an ArrayGroupScalarEdge of [children] children *)
Definition apply_array_scalar (use_dense : bool) (children : nat) (prow : list (option P)) (cargs : list (arr C))
  : option ag_res :=
  if use_dense && all_dense cargs then
    let? r := apply_scalar acc allocr children prow (map ar_data cargs) in Some (of_dense r)
  else
  if existsb (fun a => negb (ar_size a =? children)) cargs then Some AGMismatch else
  let? cu := ou_make allocc allocw addr false children (a_copts acc) cargs in
  let s0 := a_reset acc prow (a_empty acc) in
  match a_kind acc with
  | Aggregator =>
      let? s1 := aggregate_group cu 0 children s0 in
      let '(r, s) := a_result acc s1 in
      Some (match a_status acc s with Some e => AGError e | None => AGScalar r end)
  | k =>
      let? rows := ou_iterate_fn cu 0 children in
      if (match k with Partial => true | _ => false end) && (children <? 4 * ou_estimate cu) then
        let? x := fold_opt (child_step acc) (map (fun c => (fst c, true, snd c)) rows) (s0, db_init (allocr children), []) in
        checked (fst (fst x)) (dense_out (snd (fst x)))
      else
        let? x := fold_opt schild_step rows (s0, sb_init allocr children (ou_estimate cu)) in
        let '(s1, b1) := x in
        let? y := match k with
                  | Full => fold_opt sdraw_step (seq 0 (length (sb_ids b1))) (a_finalize acc s1, b1)
                  | _ => Some (s1, b1)
                  end in
        checked (fst y) (sb_build addr (snd y))
  end.
End M.
Arguments ag_res R Err : clear implicits.
