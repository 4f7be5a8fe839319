(** Model of arolla/qexpr/operators/dense_array/edge_ops.h: the operators
    edge.from_sizes, edge.pair_left, edge.pair_right, array.expand, edge.sizes,
    edge.resize_groups_child_side and edge.resize_groups_parent_side over
    DenseArrayEdge.  [alloc] is the arbitrary content of new buffers.
    Plain int64_t arithmetic is undefined on overflow. *)
From Verif Require Import Base Bits_Model Bitmap_Model Dense_Model Edge_Model Array_Model GroupOps_Model Overflow_Model.
Local Open Scope Z_scope.

Inductive op_err :=
  | SizesNotFull | SizeOverflow | NegSize | NegOffset | DupOffset
  | NotSplitPoints | SizesMismatch | OffsetsMismatch | ParentMismatch
  | BadEdge (e : edge_err).

Definition iadd (x y : Z) : option Z := if fits int64 (x + y) then Some (x + y) else None.
Definition imul (x y : Z) : option Z := if fits int64 (x * y) then Some (x * y) else None.
(** A buffer of [n] elements; a negative size is undefined. *)
Definition allocz (alloc : nat -> list Z) (n : Z) : option (list Z) :=
  if n <? 0 then None else Some (alloc (Z.to_nat n)).
Definition wrap_err (r : option (edge_err + edge)) : option (op_err + edge) :=
  let? x := r in Some (match x with inl e => inl (BadEdge e) | inr e => inr e end).

(** edge_ops.h:109-112 *)
Fixpoint sum_loop (sizes : list Z) (sp : list Z) (i n : nat) (ov : bool) : option (list Z * bool) :=
  match n with
  | O => Some (sp, ov)
  | S n' =>
      let? a := rd sp i in
      let? s := rd sizes i in
      let '(r, ov') := safe_add int64 a s ov in
      let? sp' := upd sp (i + 1) r in
      sum_loop sizes sp' (S i) n' ov'
  end.
(** edge_ops.h:98-119 [DenseArrayEdgeFromSizesOp] *)
Definition op_from_sizes (alloc : nat -> list Z) (sizes : darr Z) : option (op_err + edge) :=
  let? full := da_is_full sizes in
  if negb full then Some (inl SizesNotFull) else
  let? sp := upd (alloc (da_size sizes + 1)%nat) 0 0 in
  let? r := sum_loop (vals sizes) sp 0 (da_size sizes) false in
  let '(sp', ov) := r in
  if (ov : bool) then Some (inl SizeOverflow) else
  wrap_err (from_split_points (mkD sp' [] 0)).

(** edge_ops.h:144-147 and 191-194: child_count, pair_count, overflow *)
Definition count_step (st : Z * Z * bool) (c : nat * Z) : option (Z * Z * bool) :=
  let '(cc, pc, ov) := st in
  let? cc' := iadd cc (snd c) in
  let '(sq, o1) := safe_mul int64 (snd c) (snd c) ov in
  let '(pc', o2) := safe_add int64 pc sq o1 in
  Some (cc', pc', o2).
(** simple_buffer.h:130-139 [Inserter::Add]: buffer and position *)
Definition ins (st : list Z * nat) (v : Z) : option (list Z * nat) :=
  let '(buf, pos) := st in
  let? buf' := upd buf pos v in Some (buf', S pos).
(** edge_ops.h:157-161, [n] iterations *)
Fixpoint left_loop (n : nat) (s : Z) (st : list Z * nat * Z) : option (list Z * nat * Z) :=
  match n with
  | O => Some st
  | S n' =>
      let '(b, offset) := st in
      let? b' := ins b offset in
      let? offset' := iadd offset s in
      left_loop n' s (b', offset')
  end.
Definition left_step (st : list Z * nat * Z) (c : nat * Z) : option (list Z * nat * Z) :=
  left_loop (Z.to_nat (snd c)) (snd c) st.
(** edge_ops.h:132-168 [DenseArrayEdgePairLeftOp] *)
Definition op_pair_left (alloc : nat -> list Z) (sizes : darr Z) : option (op_err + edge) :=
  let? full := da_is_full sizes in
  if negb full then Some (inl SizesNotFull) else
  let? ps := da_for_each_present sizes in
  let? cnt := fold_opt count_step ps (0, 0, false) in
  let '(child_count, _, ov) := cnt in
  if (ov : bool) then Some (inl SizeOverflow) else
  let? n := iadd child_count 1 in
  let? buf := allocz alloc n in
  let? r := fold_opt left_step ps (buf, O, 0) in
  let '(b, offset) := r in
  let? b' := ins b offset in
  wrap_err (from_split_points (mkD (fst b') [] 0)).

(** edge_ops.h:205-207 *)
Fixpoint right_row (n j : nat) (offset : Z) (b : list Z * nat) : option (list Z * nat) :=
  match n with
  | O => Some b
  | S n' => let? v := iadd offset (Z.of_nat j) in
            let? b' := ins b v in
            right_row n' (S j) offset b'
  end.
(** edge_ops.h:204-208 *)
Fixpoint right_loop (i n : nat) (offset : Z) (b : list Z * nat) : option (list Z * nat) :=
  match i with
  | O => Some b
  | S i' => let? b' := right_row n 0 offset b in right_loop i' n offset b'
  end.
Definition right_step (st : list Z * nat * Z) (c : nat * Z) : option (list Z * nat * Z) :=
  let '(b, offset) := st in
  let n := Z.to_nat (snd c) in
  let? b' := right_loop n n offset b in
  let? offset' := iadd offset (snd c) in
  Some (b', offset').
(** edge_ops.h:181-216 [DenseArrayEdgePairRightOp] *)
Definition op_pair_right (alloc : nat -> list Z) (sizes : darr Z) : option (op_err + edge) :=
  let? full := da_is_full sizes in
  if negb full then Some (inl SizesNotFull) else
  let? ps := da_for_each_present sizes in
  let? cnt := fold_opt count_step ps (0, 0, false) in
  let '(child_count, pair_count, ov) := cnt in
  if (ov : bool) then Some (inl SizeOverflow) else
  let? buf := allocz alloc pair_count in
  let? r := fold_opt right_step ps (buf, O, 0) in
  let '(b, _) := r in
  wrap_err (from_mapping (mkD (fst b) [] 0) child_count).

Section Expand.
Context {A : Type}.
Variable mem : nat -> list A.   (** content of new buffers of T *)

(** std::fill between two positions; undefined unless 0 <= a <= b *)
Definition fillz (l : list A) (a b : Z) (x : A) : option (list A) :=
  if (0 <=? a) && (a <=? b) then fill l (Z.to_nat a) (Z.to_nat (b - a)) x else None.
(** edge_ops.h:256-258 (no bitmap) and 265-271: parents from [i]; [bits] is the
    bitmap being built *)
Fixpoint expand_loop (p : darr A) (sp : list Z) (i n : nat) (vs : list A) (bits : list N)
  : option (list A * list N) :=
  match n with
  | O => Some (vs, bits)
  | S n' =>
      let? pr := match bmp p with [] => Some true | _ => da_present p i end in
      if (pr : bool) then
        let? a := rd sp i in
        let? b := rd sp (i + 1) in
        let? x := rd (vals p) i in
        let? vs' := fillz vs a b x in
        let? bits' := match bmp p with
                      | [] => Some bits
                      | _ => set_bits_in_range W bits (Z.to_nat a) (Z.to_nat b)
                      end in
        expand_loop p sp (S i) n' vs' bits'
      else expand_loop p sp (S i) n' vs bits
  end.
(** edge_ops.h:280-287 *)
Definition expand_step (p : darr A) (st : list A * almost_full) (c : nat * bool * Z) : option (list A * almost_full) :=
  let '(vs, af) := st in
  let '(child, present, parent) := c in
  let? ok := if (present : bool)
             then (if parent <? 0 then None else da_present p (Z.to_nat parent))
             else Some false in
  if (ok : bool) then
    let? x := rdz (vals p) parent in
    let? vs' := upd vs child x in
    Some (vs', af)
  else
    let? af' := af_add_missed af child in
    Some (vs, af').
(** edge_ops.h:243-291 [DenseArrayExpandOp] over an edge *)
Definition op_expand (p : darr A) (e : edge) : option (op_err + darr A) :=
  if negb (e_parent e =? Z.of_nat (da_size p)) then Some (inl ParentMismatch) else
  if e_split e then
    let sp := vals (e_vals e) in
    let? total := back sp in
    let? _ := guard (0 <=? total) in
    let n := Z.to_nat total in
    let bits := match bmp p with [] => [] | _ => repeat 0%N (bitmap_size n) end in
    let? r := expand_loop p sp 0 (da_size p) (mem n) bits in
    Some (inr (mkD (fst r) (snd r) 0))
  else
    let? _ := guard (0 <=? e_child e) in
    let n := Z.to_nat (e_child e) in
    let? calls := da_for_each (e_vals e) in
    let? r := fold_opt (expand_step p) calls (mem n, af_init n) in
    let? bits := span_list (af_build (snd r)) in
    Some (inr (mkD (fst r) bits 0)).
(** edge_ops.h:293-304: expansion of an optional scalar to [child_size] rows *)
Definition op_expand_scalar (x : option A) (child_size : nat) : darr A :=
  match x with
  | Some v => create_const child_size v
  | None => create_empty (mem child_size)
  end.
End Expand.

(** edge_ops.h:333-335 *)
Fixpoint diff_loop (sp : list Z) (i n : nat) (b : list Z * nat) : option (list Z * nat) :=
  match n with
  | O => Some b
  | S n' =>
      let? y := rd sp i in
      let? x := rd sp (i - 1) in
      let? b' := ins b (y - x) in
      diff_loop sp (S i) n' b'
  end.
(** edge_ops.h:339-343; the counts are bounded by the number of children *)
Definition size_step (sizes : list Z) (c : nat * bool * Z) : option (list Z) :=
  let '(_, present, parent) := c in
  if (present : bool) then
    let? x := rdz sizes parent in upd sizes (Z.to_nat parent) (x + 1)
  else Some sizes.
(** edge_ops.h:324-346 [DenseArrayEdgeSizesOp] *)
Definition op_sizes (alloc : nat -> list Z) (e : edge) : option (darr Z) :=
  let? buf := allocz alloc (e_parent e) in
  if e_split e then
    let sp := vals (e_vals e) in
    let? b := diff_loop sp 1 (length sp - 1) (buf, O) in
    Some (mkD (fst b) [] 0)
  else
    let? calls := da_for_each (e_vals e) in
    let? s := fold_opt size_step calls (repeat 0 (length buf)) in
    Some (mkD s [] 0).

(** edge_ops.h:382-386: state of the loop of edge.resize_groups_child_side *)
Record rstate := { r_idx : nat; r_base : Z; r_size : Z; r_b : dbuilder Z; r_set : list bool;
                   r_neg : bool; r_dup : bool }.
(** edge_ops.h:388-392; every iteration reads the next split point *)
Fixpoint advance (fuel : nat) (sp : list Z) (getter : nat -> option Z) (old : Z) (idx : nat) (base size : Z)
  : option (nat * Z * Z) :=
  let? s := rd sp idx in
  if s <=? old then
    match fuel with
    | O => None
    | S f =>
        let? base' := iadd base size in
        let? size' := getter idx in
        advance f sp getter old (S idx) base' size'
    end
  else Some (idx, base, size).
(** edge_ops.h:387-404 *)
Definition resize_step (sp : list Z) (getter : nat -> option Z) (st : rstate) (c : nat * Z) : option rstate :=
  let '(old, off) := c in
  let? r := advance (length sp) sp getter (Z.of_nat old) (r_idx st) (r_base st) (r_size st) in
  let '(idx, base, size) := r in
  if off <? 0 then
    Some {| r_idx := idx; r_base := base; r_size := size; r_b := r_b st; r_set := r_set st;
            r_neg := true; r_dup := r_dup st |}
  else if off <? size then
    let? id := iadd base off in
    let? _ := guard (0 <=? id) in
    let? b := db_set (r_b st) (Z.to_nat id) (Some (Z.of_nat old)) in
    let? seen := rd (r_set st) (Z.to_nat id) in
    let? set := if (seen : bool) then Some (r_set st) else upd (r_set st) (Z.to_nat id) true in
    Some {| r_idx := idx; r_base := base; r_size := size; r_b := b; r_set := set;
            r_neg := r_neg st; r_dup := r_dup st || seen |}
  else
    Some {| r_idx := idx; r_base := base; r_size := size; r_b := r_b st; r_set := r_set st;
            r_neg := r_neg st; r_dup := r_dup st |}.
(** edge.h:37 *)
Definition empty_edge : edge := mkE false 0 0 (mkD [] [] 0).
(** edge_ops.h:366-418 [FromSplitPoints] *)
Definition resize_child (alloc : nat -> list Z) (sp : list Z) (getter : nat -> option Z) (total : Z)
    (offsets : darr Z) : option (op_err + edge) :=
  let? child_size := back sp in
  if total <? 0 then Some (inl NegSize) else
  let n := Z.to_nat total in
  if (length sp <? 2)%nat then Some (inr empty_edge) else
  let? s0 := getter 0%nat in
  let? ps := da_for_each_present offsets in
  let? st := fold_opt (resize_step sp getter) ps
    {| r_idx := 1; r_base := 0; r_size := s0; r_b := db_init (alloc n); r_set := repeat false n;
       r_neg := false; r_dup := false |} in
  if r_neg st then Some (inl NegOffset) else
  if r_dup st then Some (inl DupOffset) else
  wrap_err (from_mapping (db_build (r_b st)) child_size).
(** edge_ops.h:456-466: one size for all groups *)
Definition op_resize_child_one (alloc : nat -> list Z) (e : edge) (new_size : Z) (offsets : darr Z)
  : option (op_err + edge) :=
  if negb (e_split e) then Some (inl NotSplitPoints) else
  if negb (Z.of_nat (da_size offsets) =? e_child e) then Some (inl OffsetsMismatch) else
  let? total := imul new_size (e_parent e) in
  resize_child alloc (vals (e_vals e)) (fun _ => Some new_size) total offsets.
(** edge_ops.h:468-475: edge to a scalar *)
Definition op_resize_child_scalar (alloc : nat -> list Z) (child_size new_size : Z) (offsets : darr Z)
  : option (op_err + edge) :=
  if negb (Z.of_nat (da_size offsets) =? child_size) then Some (inl OffsetsMismatch) else
  resize_child alloc [0; child_size] (fun _ => Some new_size) new_size offsets.
(** edge_ops.h:477-496: a size for every group *)
Definition op_resize_child (alloc : nat -> list Z) (e : edge) (new_sizes offsets : darr Z)
  : option (op_err + edge) :=
  if negb (e_split e) then Some (inl NotSplitPoints) else
  let? full := da_is_full new_sizes in
  if negb full then Some (inl SizesNotFull) else
  if negb (da_size new_sizes + 1 =? da_size (e_vals e))%nat then Some (inl SizesMismatch) else
  if negb (Z.of_nat (da_size offsets) =? e_child e) then Some (inl OffsetsMismatch) else
  let? total := fold_opt (fun t s => iadd t s) (vals new_sizes) 0 in
  resize_child alloc (vals (e_vals e)) (rd (vals new_sizes)) total offsets.

(** edge_ops.h:522-524 *)
Fixpoint uniform_loop (sp : list Z) (i n : nat) (new_size : Z) : option (list Z) :=
  match n with
  | O => Some sp
  | S n' =>
      let? a := rd sp (i - 1) in
      let? v := iadd a new_size in
      let? sp' := upd sp i v in
      uniform_loop sp' (S i) n' new_size
  end.
(** edge_ops.h:503-526 *)
Definition op_resize_parent_one (alloc : nat -> list Z) (e : edge) (new_size : Z) : option (op_err + edge) :=
  if negb (e_split e) then Some (inl NotSplitPoints) else
  if new_size <? 0 then Some (inl NegSize) else
  let? n := iadd (e_parent e) 1 in
  let? buf := allocz alloc n in
  let? sp := upd buf 0 0 in
  let? sp' := uniform_loop sp 1 (Z.to_nat n - 1) new_size in
  wrap_err (from_split_points (mkD sp' [] 0)).
(** edge_ops.h:540-554 *)
Definition op_resize_parent (alloc : nat -> list Z) (e : edge) (new_sizes : darr Z) : option (op_err + edge) :=
  if negb (e_split e) then Some (inl NotSplitPoints) else
  if negb (Z.of_nat (da_size new_sizes) =? e_parent e) then Some (inl SizesMismatch) else
  op_from_sizes alloc new_sizes.
