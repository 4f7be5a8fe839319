(** Model of arolla/jagged_shape/jagged_shape.h, util/concat.h, dense_array/util/concat.h,
    array/util/concat.h and of the operators in qexpr/shape_operators.h, over DenseArrayEdge.
    A shape is the list of its edges; whether two shapes share one implementation object is
    a parameter [same].  [None]: undefined, including the use of a result that is an error. *)
From Verif Require Import Base Bits_Model Bitmap_Model Dense_Model Edge_Model IdFilter_Model Array_Model.
Local Open Scope Z_scope.

Definition shape : Type := list edge.
(** jagged_shape.h:142-144 *)
Definition sh_size (es : shape) : Z :=
  match rev es with [] => 1 | e :: _ => e_child e end.

Section S.
Variable alloc : nat -> list Z.

(** jagged_shape.h:104-121 [FromEdges] *)
Fixpoint from_loop (child : Z) (es : list edge) : option (edge_err + shape) :=
  match es with
  | [] => Some (inr [])
  | e :: t =>
      if negb (e_parent e =? child) then Some (inl Incompatible) else
      let? r := if e_split e then Some (inr e) else to_split_points alloc e in
      match r with
      | inl x => Some (inl x)
      | inr e' => let? r := from_loop (e_child e') t in
                  Some (match r with inl x => inl x | inr s => inr (e' :: s) end)
      end
  end.
Definition from_edges (es : list edge) : option (edge_err + shape) := from_loop 1 es.

Definition get {X Y} (r : option (X + Y)) : option Y :=
  let? x := r in match x with inl _ => None | inr y => Some y end.
(** jagged_shape.h:127-133 *)
Definition flat_from_size (size : Z) : option shape :=
  let? e := get (from_uniform_groups 1 size) in Some [e].
(** jagged_shape.h:154-160 *)
Definition add_dims (s : shape) (es : list edge) : option (edge_err + shape) := from_edges (s ++ es).
(** jagged_shape.h:164-169 *)
Definition remove_dims (s : shape) (from : nat) : option shape :=
  if (from <=? length s)%nat then Some (firstn from s) else None.
(** jagged_shape.h:184-212 [FlattenDims] *)
Definition flatten_dims (s : shape) (from to : nat) : option shape :=
  if negb ((from <=? to)%nat && (to <=? length s)%nat) then None else
  if (to - from =? 1)%nat then Some s else
  if (to - from =? length s)%nat then flat_from_size (sh_size s) else
  if (from =? to)%nat then
    let? p := if (from =? 0)%nat then Some 1 else let? e := rd s (from - 1) in Some (e_child e) in
    let? u := get (from_uniform_groups p 1) in
    Some (firstn from s ++ [u] ++ skipn to s)
  else
    let? c := get (compose_edges alloc (firstn (to - from) (skipn from s))) in
    Some (firstn from s ++ [c] ++ skipn to s).

(** jagged_shape.h:42 *)
Inductive feq := NotEq | Eq | SizesEq.
(** 246-251, both in reverse order *)
Fixpoint same_sizes (a b : list edge) : bool :=
  match a, b with
  | [], _ => true
  | x :: a', y :: b' => if negb (e_child x =? e_child y) then false else same_sizes a' b'
  | _ :: _, [] => false
  end.
(** jagged_shape.h:217-254 [FastEquivalenceCheck] *)
Definition fast_equiv (same : bool) (a b : shape) : feq :=
  if same then Eq else
  if negb (length a =? length b)%nat then NotEq else
  match rev a, rev b with
  | x :: ra, y :: rb =>
      if negb (e_child x =? e_child y) then NotEq else
      if (length a =? 1)%nat then Eq else
      if same_sizes ra rb then SizesEq else NotEq
  | _, _ => Eq
  end.
Fixpoint all_equiv (a b : list edge) : option bool :=
  match a, b with
  | [], _ => Some true
  | x :: a', y :: b' => let? r := is_equivalent alloc x y in
                        if negb r then Some false else all_equiv a' b'
  | _ :: _, [] => None
  end.
(** jagged_shape.h:257-266 *)
Definition is_equiv (same : bool) (a b : shape) : option bool :=
  match fast_equiv same a b with
  | NotEq => Some false
  | Eq => Some true
  | SizesEq => all_equiv (skipn 1 a) (skipn 1 b)
  end.
(** jagged_shape.h:273-280 *)
Definition is_broadcastable (same : bool) (a b : shape) : option bool :=
  if same then Some true else
  if (length b <? length a)%nat then Some false else all_equiv a b.
(** jagged_shape.h:295-310 *)
Definition broadcast_edge (a b : shape) : option edge :=
  if (length a =? length b)%nat then get (from_uniform_groups (sh_size a) 1)
  else get (compose_edges alloc (skipn (length a) b)).

(** ** Operators, qexpr/shape_operators.h *)
(** 166-169 [GetPosIndex] *)
Definition get_pos_index (index max_index : Z) : Z :=
  let pos := if index <? 0 then index + max_index else index in
  if pos <? 0 then 0 else if max_index <? pos then max_index else pos.
(** 179-192; the error message negates the dimension *)
Definition op_edge_at (s : shape) (dim : Z) : option (Z + edge) :=
  let rank := Z.of_nat (length s) in
  let pos := if dim <? 0 then dim + rank else dim in
  if (pos <? 0) || (rank <=? pos) then
    let? shown := if 0 <=? dim then Some dim
                  else if fits_int64 (- dim) then Some (- dim - 1) else None in
    Some (inl shown)
  else let? e := rd s (Z.to_nat pos) in Some (inr e).
(** 196-201 *)
Definition op_remove_dims (s : shape) (from : Z) : option shape :=
  remove_dims s (Z.to_nat (get_pos_index from (Z.of_nat (length s)))).
(** 205-211 *)
Definition op_flatten (s : shape) (from to : Z) : option shape :=
  let f := get_pos_index from (Z.of_nat (length s)) in
  let t := get_pos_index to (Z.of_nat (length s)) in
  flatten_dims s (Z.to_nat f) (Z.to_nat (Z.max t f)).

(** ** Concatenation, util/concat.h *)
(** The variables of BuildSuffixEdge (195-214): edge_splits, edge_last_split_id,
    edge_last_split, shape_i_split, group_sizes, group_index *)
Record bst := mkB { b_out : list Z; b_id : nat; b_last : Z; b_pos : list nat; b_gs : list Z; b_gi : nat }.
(** 202-206 *)
Definition add_split (st : bst) (size : Z) : option bst :=
  let last := b_last st + size in
  let? o := upd (b_out st) (S (b_id st)) last in
  Some (mkB o (S (b_id st)) last (b_pos st) (b_gs st) (b_gi st)).
(** 232-244 *)
Fixpoint group_loop (e : edge) (j : nat) (is_concat : bool) (st : bst) (new_size : Z) (n : nat) : option (bst * Z) :=
  match n with
  | O => Some (st, new_size)
  | S n' =>
      let? p := rd (b_pos st) j in
      let? sz := split_size e p in
      let? pos := upd (b_pos st) j (S p) in
      let st := mkB (b_out st) (b_id st) (b_last st) pos (b_gs st) (b_gi st) in
      let? st := if is_concat then Some st else add_split st sz in
      group_loop e j is_concat st (new_size + sz) n'
  end.
(** 218-251: shapes from the [j]-th one *)
Fixpoint row_loop (shapes : list shape) (dim j : nat) (is_concat : bool) (st : bst) (total : Z) : option (bst * Z) :=
  match shapes with
  | [] => Some (st, total)
  | s :: t =>
      let? e := rd s dim in
      let? g := rd (b_gs st) (b_gi st) in
      let? r := group_loop e j is_concat st 0 (Z.to_nat g) in
      let '(st, size) := r in
      let? gs := upd (b_gs st) (b_gi st) size in
      row_loop t dim (S j) is_concat (mkB (b_out st) (b_id st) (b_last st) (b_pos st) gs (S (b_gi st))) (total + size)
  end.
(** 215-257 *)
Fixpoint rows_loop (shapes : list shape) (dim : nat) (is_concat : bool) (st : bst) (n : nat) : option bst :=
  match n with
  | O => Some st
  | S n' =>
      let? r := row_loop shapes dim 0 is_concat st 0 in
      let '(st, total) := r in
      let? st := if is_concat then add_split st total else Some st in
      rows_loop shapes dim is_concat st n'
  end.
(** 177-263 [BuildSuffixEdge] *)
Definition build_suffix (shapes : list shape) (dim : nat) (gs : list Z) (num_groups parent : Z) (is_concat : bool)
  : option (edge * list Z) :=
  let? o := upd (alloc (Z.to_nat (parent + 1))) 0 0 in
  let? st := rows_loop shapes dim is_concat (mkB o 0 0 (repeat O (length shapes)) gs 0) (Z.to_nat num_groups) in
  let? e := unsafe_from_split_points (mkD (b_out st) [] 0) in
  Some (e, b_gs st).

Inductive jerr := JEmpty | JRankZero | JDim | JRank | JPrefix | JCount | JSize (i : nat) | JEdge (e : edge_err).
(** 294-300: the first [dim] edges *)
Fixpoint prefix_equiv (a b : list edge) (dim : nat) : option bool :=
  match dim with
  | O => Some true
  | S d => match a, b with
           | x :: a', y :: b' => let? r := is_equivalent alloc x y in
                                 if negb r then Some false else prefix_equiv a' b' d
           | _, _ => None
           end
  end.
(** 287-301 *)
Fixpoint check_shapes (s0 : shape) (shapes : list shape) (dim : nat) : option (option jerr) :=
  match shapes with
  | [] => Some None
  | s :: t =>
      if negb (length s =? length s0)%nat then Some (Some JRank) else
      let? r := prefix_equiv s0 s dim in
      if negb r then Some (Some JPrefix) else check_shapes s0 t dim
  end.
Definition back_child (es : list edge) : Z := match rev es with [] => 1 | e :: _ => e_child e end.
(** 331-346: input dimensions from [i_dim]; [n] of them remain *)
Fixpoint suffix_loop (shapes : list shape) (insert : bool) (dim : nat) (num_groups : Z) (es : list edge) (gs : list Z) (i_dim n : nat)
  : option (list edge * list Z) :=
  match n with
  | O => Some (es, gs)
  | S n' =>
      let is_concat := negb insert && (i_dim =? dim)%nat in
      let? r := build_suffix shapes i_dim gs num_groups (back_child es) is_concat in
      let '(e, gs) := r in
      suffix_loop shapes insert dim num_groups (es ++ [e]) gs (S i_dim) n'
  end.
(** 268-351 [ConcatJaggedShapesAlongDimension] *)
Definition concat_shapes (shapes : list shape) (dim : Z) (insert : bool) : option (jerr + (shape * list Z)) :=
  match shapes with
  | [] => Some (inl JEmpty)
  | s0 :: _ =>
      let rank := length s0 in
      let result_rank := if insert then S rank else rank in
      if (result_rank =? 0)%nat then Some (inl JRankZero) else
      if (dim <? 0) || (Z.of_nat result_rank <=? dim) then Some (inl JDim) else
      let d := Z.to_nat dim in
      let? c := check_shapes s0 shapes d in
      match c with
      | Some e => Some (inl e)
      | None =>
          let es := firstn d s0 in
          let num_groups := back_child es in
          let? r := if insert then
                      let? u := from_uniform_groups num_groups (Z.of_nat (length shapes)) in
                      Some (match u with inl x => inl x | inr u => inr (es ++ [u]) end)
                    else Some (inr es) in
          match r with
          | inl x => Some (inl (JEdge x))
          | inr es =>
              let? r := suffix_loop shapes insert d num_groups es (repeat 1 (Z.to_nat num_groups * length shapes)) d (rank - d) in
              let '(es, gs) := r in
              let? f := from_edges es in
              Some (match f with inl x => inl (JEdge x) | inr s => inr (s, gs) end)
          end
      end
  end.

(** Arrays: [a_size], [a_each a off n]: the calls of Slice(off, n).ForEachPresent,
    [a_build arrays adds]: a builder made by ConcatResultArrayBuilderHelper, after all the
    calls of Add. *)
Section Arr.
Context {T Ar : Type}.
Variable a_size : Ar -> Z.
Variable a_each : Ar -> Z -> Z -> option (list (nat * T)).
Variable a_build : list Ar -> list (nat * T) -> option Ar.

(** 394-401 *)
Fixpoint check_sizes (arrays : list Ar) (shapes : list shape) (i : nat) : option jerr :=
  match arrays, shapes with
  | a :: arrays', s :: shapes' =>
      if negb (a_size a =? sh_size s) then Some (JSize i) else check_sizes arrays' shapes' (S i)
  | _, _ => None
  end.
(** array_offsets, result_offset, group_index, and the calls of Add *)
Record cst := mkC { c_offs : list Z; c_res : Z; c_gi : nat; c_adds : list (nat * T) }.
(** 423-434 *)
Fixpoint copy_row (arrays : list Ar) (j : nat) (gs : list Z) (st : cst) : option cst :=
  match arrays with
  | [] => Some st
  | a :: t =>
      let? g := rd gs (c_gi st) in
      let? off := rd (c_offs st) j in
      let? ps := a_each a off g in
      let? offs := upd (c_offs st) j (off + g) in
      copy_row t (S j) gs (mkC offs (c_res st + g) (S (c_gi st))
        (c_adds st ++ map (fun p => (Z.to_nat (c_res st + Z.of_nat (fst p)), snd p)) ps))
  end.
Fixpoint copy_rows (arrays : list Ar) (gs : list Z) (st : cst) (n : nat) : option cst :=
  match n with
  | O => Some st
  | S n' => let? st := copy_row arrays 0 gs st in copy_rows arrays gs st n'
  end.
(** 373-439 [ConcatJaggedArraysAlongDimension] *)
Definition concat_arrays (arrays : list Ar) (shapes : list shape) (dim : Z) (insert : bool)
  : option (jerr + (Ar * shape)) :=
  if negb (length arrays =? length shapes)%nat then Some (inl JCount) else
  let? r := concat_shapes shapes dim insert in
  match r with
  | inl e => Some (inl e)
  | inr (s, gs) =>
      match arrays with
      | [a] => Some (inr (a, s))
      | _ =>
          match check_sizes arrays shapes 0 with
          | Some e => Some (inl e)
          | None =>
              let? e := rd s (Z.to_nat dim) in
              let? st := copy_rows arrays gs (mkC (repeat 0 (length arrays)) 0 0 []) (Z.to_nat (e_parent e)) in
              let? a := a_build arrays (c_adds st) in
              Some (inr (a, s))
          end
      end
  end.
End Arr.
End S.

(** DenseArray: dense_array.h:116-131, 184-195; dense_array/util/concat.h:29-37 *)
Section Dense.
Context {T : Type}.
Variable mem : nat -> list T.
Definition d_each (a : darr T) (off n : Z) : option (list (nat * T)) :=
  let? s := da_slice a (Z.to_nat off) (Z.to_nat n) in da_for_each_present s.
Fixpoint d_adds (b : dbuilder T) (ps : list (nat * T)) : option (dbuilder T) :=
  match ps with
  | [] => Some b
  | (i, v) :: t => let? b := db_set b i (Some v) in d_adds b t
  end.
Definition d_build (arrays : list (darr T)) (adds : list (nat * T)) : option (darr T) :=
  let n := list_sum (map da_size arrays) in
  let? b := d_adds (db_init (mem n)) adds in Some (db_build b).
Definition concat_dense (alloc : nat -> list Z) := concat_arrays alloc (fun a : darr T => Z.of_nat (da_size a)) d_each d_build.
End Dense.

(** Array: array.h Slice, ForEachPresent; array/util/concat.h:29-40, SparseArrayBuilder *)
Section Sparse.
Context {T : Type}.
Variable mem : nat -> list T.
Variable addr : nat.
Definition s_each (a : arr T) (off n : Z) : option (list (nat * T)) :=
  let? s := ar_slice a (Z.to_nat off) (Z.to_nat n) in
  let? ps := ar_for_each_present_fn s in
  Some (flat_map (fun p => match snd p with Some v => [(fst p, v)] | None => [] end) ps).
Fixpoint s_adds (b : sbuilder T) (ps : list (nat * T)) : option (sbuilder T) :=
  match ps with
  | [] => Some b
  | (i, v) :: t => let? b := sb_add b i (Some v) in s_adds b t
  end.
Fixpoint sum_counts (arrays : list (arr T)) : option nat :=
  match arrays with
  | [] => Some O
  | a :: t => let? c := ar_present_count a in let? r := sum_counts t in Some (c + r)%nat
  end.
Definition s_build (arrays : list (arr T)) (adds : list (nat * T)) : option (arr T) :=
  let? c := sum_counts arrays in
  let? b := s_adds (sb_init mem (list_sum (map (@ar_size T) arrays)) c) adds in sb_build addr b.
Definition concat_sparse (alloc : nat -> list Z) := concat_arrays alloc (fun a : arr T => Z.of_nat (ar_size a)) s_each s_build.
End Sparse.
