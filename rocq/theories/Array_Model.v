(** Model of arolla/array/array.h.  Buffers are lists, a buffer of ids carries an
    address (see IdFilter_Model); [alloc n] is the arbitrary initial content of a
    new buffer of [n] values, [allocw n] of [n] bitmap words. *)
From Verif Require Import Base Bits_Model Bitmap_Model Dense_Model IdFilter_Model GroupOps_Model.

(** array.h:389-392 *)
Record arr (A : Type) := mkArr { ar_size : nat; ar_ids : idf; ar_data : darr A; ar_miss : option A }.
Arguments mkArr {A}. Arguments ar_size {A}. Arguments ar_ids {A}. Arguments ar_data {A}. Arguments ar_miss {A}.

Section M.
Context {A : Type}.
Implicit Types a : arr A.

(** DenseArray<T>{} *)
Definition no_data : darr A := mkD [] [] 0.

(** array.h:56-61 constant array *)
Definition ar_const (size : nat) (v : option A) : arr A := mkArr size FEmpty no_data v.
(** array.h:64-69 from DenseArray *)
Definition ar_dense (d : darr A) : arr A := mkArr (da_size d) FFull d None.
(** array.h:86-109: all fields; the checks are DCHECKs *)
Definition ar_make (size : nat) (ids : idf) (d : darr A) (m : option A) : arr A :=
  mkArr size ids d (match ids with FFull => None | _ => m end).

(** array.h:118-128 [operator[]]; outer option: undefined behaviour *)
Definition ar_get a (i : nat) : option (option A) :=
  match id_to_offset (ar_ids a) i with
  | Some o => da_get (ar_data a) o
  | None => Some (ar_miss a)
  end.

(** array.h:143-164 *)
Definition is_const_form a := match ar_ids a with FEmpty => true | _ => false end.
Definition is_dense_form a := match ar_ids a with FFull => true | _ => false end.
Definition is_sparse_form a := match ar_ids a with FPartial _ _ _ => true | _ => false end.
Definition present_opt (o : option A) : bool := match o with Some _ => true | None => false end.
Definition is_all_missing_form a := is_const_form a && negb (present_opt (ar_miss a)).
Definition is_full_form a :=
  is_dense_form a && match bmp (ar_data a) with [] => true | _ => false end.
Definition has_missing_id_value a :=
  negb (is_dense_form a) && present_opt (ar_miss a) && (0 <? ar_size a).

(** simple_buffer.h:206-208 ReshuffleBuilder::CopyValue *)
Definition rs_copy (dst src : list A) (new old : nat) : option (list A) :=
  let? v := rd src old in upd dst new v.

(** array.h:508-517 (the state is the values and the bitmap being built) *)
Definition ws_partial (d : darr A) (b : dbuilder A) (c : nat * nat * nat) : option (dbuilder A) :=
  let '(_, old, new) := c in
  let? p := da_present d old in
  if (p : bool) then
    let? vs := rs_copy (db_vals b) (vals d) new old in
    let? bits := set_bit W (db_bits b) new in
    Some {| db_vals := vs; db_bits := bits |}
  else
    let? bits := bm_unset_bit (db_bits b) new in
    Some {| db_vals := db_vals b; db_bits := bits |}.
(** array.h:522-529 *)
Definition ws_full_default (ids : idf) (d : darr A) (b : dbuilder A) (c : nat * bool * A) : option (dbuilder A) :=
  let '(o, p, _) := c in
  let? new := ids_offset_to_id ids o in
  if (p : bool) then
    let? vs := rs_copy (db_vals b) (vals d) new o in
    Some {| db_vals := vs; db_bits := db_bits b |}
  else
    let? bits := bm_unset_bit (db_bits b) new in
    Some {| db_vals := db_vals b; db_bits := bits |}.
(** array.h:533-539 *)
Definition ws_full (ids : idf) (d : darr A) (b : dbuilder A) (c : nat * bool * A) : option (dbuilder A) :=
  let '(o, p, _) := c in
  let? new := ids_offset_to_id ids o in
  if (p : bool) then
    let? vs := rs_copy (db_vals b) (vals d) new o in
    let? bits := set_bit W (db_bits b) new in
    Some {| db_vals := vs; db_bits := bits |}
  else Some b.

(** Number of ids selected by the target filter: array.h:471-472, 498-499 *)
Definition target_size (size : nat) (ids : idf) : nat :=
  match ids with FPartial _ l _ => length l | _ => size end.

(** array.h:493-547 [WithIdsFromSparse]; lines 504-505: memset of the bitmap *)
Definition with_ids_from_sparse (alloc : nat -> list A) a (ids : idf) : option (darr A) :=
  let n := target_size (ar_size a) ids in
  let b0 := {| db_vals := match ar_miss a with Some v => repeat v n | None => alloc n end;
               db_bits := repeat (if present_opt (ar_miss a) then full_word else 0%N) (bitmap_size n) |} in
  let? b := match ids with
            | FPartial _ _ _ =>
                let? calls := intersect_partial (ar_ids a) ids in
                fold_opt (ws_partial (ar_data a)) calls b0
            | _ =>
                let? calls := da_for_each (ar_data a) in
                if present_opt (ar_miss a)
                then fold_opt (ws_full_default (ar_ids a) (ar_data a)) calls b0
                else fold_opt (ws_full (ar_ids a) (ar_data a)) calls b0
            end in
  let? all := are_all_bits_set (db_bits b) n in
  Some (mkD (db_vals b) (if (all : bool) then [] else db_bits b) 0).

(** array.h:562-564, 568-573: copy the values at the ids; [i] is [index] *)
Fixpoint copy_ids (src dst : list A) (off i : nat) (ids : list nat) : option (list A) :=
  match ids with
  | [] => Some dst
  | x :: t => let? _ := guard (off <=? x) in
              let? dst' := rs_copy dst src i (x - off) in
              copy_ids src dst' off (S i) t
  end.
Fixpoint presence_at (d : darr A) (off : nat) (ids : list nat) : option (list bool) :=
  match ids with
  | [] => Some []
  | x :: t => let? _ := guard (off <=? x) in
              let? p := da_present d (x - off) in
              let? r := presence_at d off t in
              Some (p :: r)
  end.
(** array.h:552-576 [WithIdsDenseToSparse] *)
Definition with_ids_dense_to_sparse (alloc : nat -> list A) (allocw : nat -> list N) a (ids : idf)
  : option (darr A) :=
  match ids with
  | FPartial _ l off =>
      let? vs := copy_ids (vals (ar_data a)) (alloc (length l)) off 0 l in
      match bmp (ar_data a) with
      | [] => Some (mkD vs [] 0)
      | _ =>
          let? bits := presence_at (ar_data a) off l in
          let? b := builder_add (builder_init (allocw (bitmap_size (length l)))) bits in
          Some (mkD vs (builder_build b) 0)
      end
  | _ => None
  end.

(** array.h:458-488 [WithIds] *)
Definition with_ids (alloc : nat -> list A) (allocw : nat -> list N) a (ids : idf) (m : option A)
  : option (arr A) :=
  if (match ids with FEmpty => true | _ => false end) || (ar_size a =? 0)
  then Some (ar_const (ar_size a) m)
  else if is_same (ar_ids a) ids then Some (ar_make (ar_size a) ids (ar_data a) m)
  else
    let? d := match ar_ids a with
              | FEmpty =>
                  let n := target_size (ar_size a) ids in
                  Some (match ar_miss a with
                        | Some v => create_const n v
                        | None => create_empty (alloc n)
                        end)
              | FPartial _ _ _ => with_ids_from_sparse alloc a ids
              | FFull => with_ids_dense_to_sparse alloc allocw a ids
              end in
    Some (ar_make (ar_size a) ids d m).

(** array.h:178-181 [ToDenseForm] *)
Definition to_dense_form alloc allocw a : option (arr A) := with_ids alloc allocw a FFull None.

(** ** ToSparseForm *)
Section Sparse.
Variable eqb : A -> A -> bool.
(** optional_value.h: operator== of OptionalValue *)
Definition opt_eqb (x y : option A) : bool :=
  match x, y with
  | Some u, Some v => eqb u v
  | None, None => true
  | _, _ => false
  end.

(** simple_buffer.h:63-66 Inserter::Add into a buffer of [cap] elements *)
Definition push (cap : nat) (l : list nat) (x : nat) : option (list nat) :=
  if length l <? cap then Some (l ++ [x]) else None.
Fixpoint push_range (cap : nat) (l : list nat) (from n : nat) : option (list nat) :=
  match n with
  | O => Some l
  | S k => let? l' := push cap l from in push_range cap l' (S from) k
  end.

(** array.h:601-610: one call of the lambda; state: ids written, next_id.  A value
    [v <> missing_id_value.value] is [negb (eqb missing v)] there (line 606). *)
Definition changed_step (size : nat) (f : idf) (m : option A) (st : list nat * nat) (c : nat * bool * A)
  : option (list nat * nat) :=
  let '(ids, next) := st in
  let '(o, p, v) := c in
  let? id := ids_offset_to_id f o in
  let? ids1 := push_range size ids next (id - next) in
  let differs := match p, m with
                 | true, Some x => negb (eqb x v)
                 | false, None => false
                 | _, _ => true
                 end in
  let? ids2 := (if differs then push size ids1 id else Some ids1) in
  Some (ids2, S id).
(** array.h:591-615 [ToSparseFormWithChangedMissedIdValue].  In const form the
    dense data is empty. *)
Definition to_sparse_changed alloc allocw (addr : nat) a (m : option A) : option (arr A) :=
  let? calls := da_for_each (ar_data a) in
  let? st := fold_opt (changed_step (ar_size a) (ar_ids a) m) calls ([], 0) in
  let '(ids, next) := st in
  let? ids' := push_range (ar_size a) ids next (ar_size a - next) in
  with_ids alloc allocw a (mk_filter (ar_size a) addr ids' 0) m.

(** The id of an element of the dense data: array.h:649-661 *)
Definition data_id a (o : nat) : option nat :=
  if is_dense_form a then Some o else ids_offset_to_id (ar_ids a) o.

(** array.h:630-637 *)
Definition differ_step (cap : nat) (x : A) (ids : list nat) (c : nat * bool * A) : option (list nat) :=
  let '(o, p, v) := c in
  if negb p || negb (eqb v x) then push cap ids o else Some ids.
(** array.h:648-662: state: ids, values built, new_offset (= number of ids) *)
Definition copy_step (keep : nat -> bool -> A -> bool) a (st : list nat * list A) (c : nat * bool * A)
  : option (list nat * list A) :=
  let '(ids, vs) := st in
  let '(o, p, v) := c in
  if keep o p v then
    let? id := data_id a o in
    let? vs' := rs_copy vs (vals (ar_data a)) (length ids) o in
    let? ids' := push (da_size (ar_data a)) ids id in
    Some (ids', vs')
  else Some st.
(** array.h:666-677 *)
Definition bitmap_step (x : A) a (st : list nat * list A * almost_full) (c : nat * bool * A)
  : option (list nat * list A * almost_full) :=
  let '(ids, vs, af) := st in
  let '(o, p, v) := c in
  if p && eqb v x then Some st else
  let? id := ids_offset_to_id (ar_ids a) o in
  let? ids' := push (da_size (ar_data a)) ids id in
  if (p : bool) then
    let? vs' := rs_copy vs (vals (ar_data a)) (length ids) o in
    Some (ids', vs', af)
  else
    let? af' := af_add_missed af (length ids) in
    Some (ids', vs, af').
(** The words of a bitmap buffer; undefined if it claims more than it has. *)
Definition span_list (s : span) : option (list N) :=
  if sp_len s <=? length (sp_mem s) then Some (span_words s) else None.

(** array.h:618-684 [ToSparseFormWithMissedIdValue] *)
Definition to_sparse_with alloc allocw (addr : nat) a (x : A) : option (arr A) :=
  let n := da_size (ar_data a) in
  let has_bitmap := match bmp (ar_data a) with [] => false | _ => true end in
  let? calls := da_for_each (ar_data a) in
  if is_dense_form a && has_bitmap then
    let? ids := fold_opt (differ_step n x) calls [] in
    with_ids alloc allocw a (mk_filter (ar_size a) addr ids 0) (Some x)
  else
    let? st := (if negb has_bitmap then
                  let? st := fold_opt (copy_step (fun _ _ v => negb (eqb v x)) a) calls ([], alloc n) in
                  Some (st, [])
                else
                  let? st := fold_opt (bitmap_step x a) calls ([], alloc n, af_init n) in
                  let '(ids, vs, af) := st in
                  let? bm := span_list (af_build_size af (length ids)) in
                  Some (ids, vs, bm)) in
    let '(ids, vs, bm) := st in
    let? vs' := buf_slice vs 0 (length ids) in
    Some (ar_make (ar_size a) (mk_filter (ar_size a) addr ids 0) (mkD vs' bm 0) (Some x)).

(** array.h:687-721 [ToSparseFormWithoutMissedIdValue] *)
Definition to_sparse_without (alloc : nat -> list A) (addr : nat) a : option (arr A) :=
  match bmp (ar_data a) with
  | [] => Some a
  | _ =>
      let? calls := da_for_each (ar_data a) in
      let? st := fold_opt (copy_step (fun _ p _ => p) a) calls ([], alloc (da_size (ar_data a))) in
      let '(ids, vs) := st in
      let? vs' := buf_slice vs 0 (length ids) in
      Some (ar_make (ar_size a) (mk_filter (ar_size a) addr ids 0) (mkD vs' [] 0) None)
  end.

(** array.h:579-588 [ToSparseForm] *)
Definition to_sparse alloc allocw (addr : nat) a (m : option A) : option (arr A) :=
  if negb (is_dense_form a) && negb (opt_eqb m (ar_miss a)) then to_sparse_changed alloc allocw addr a m
  else match m with
       | Some x => to_sparse_with alloc allocw addr a x
       | None => to_sparse_without alloc addr a
       end.

(** array.h:397-410 [ArraysAreEquivalent] *)
Definition ar_equivalent alloc allocw (addr : nat) (a b : arr A) : option bool :=
  if negb (ar_size a =? ar_size b) then Some false else
  if is_dense_form a && is_dense_form b then da_equivalent eqb (ar_data a) (ar_data b) else
  let? u := merge_all (fun _ => addr) (ar_size a) (ar_ids a) [ar_ids b] in
  let? x := with_ids alloc allocw a u (ar_miss a) in
  let? y := with_ids alloc allocw b u (ar_miss b) in
  if opt_eqb (ar_miss x) (ar_miss y) then da_equivalent eqb (ar_data x) (ar_data y)
  else Some false.
End Sparse.

(** simple_buffer.h: the address of a slice of an id buffer moves with it *)
Definition slice_filter (row_count addr : nat) (ids : list nat) (start count off : nat) : option idf :=
  let? l := buf_slice ids start count in
  Some (mk_filter row_count (addr + start) l off).
(** array.h:220-245 [Slice] *)
Definition ar_slice a (start_id row_count : nat) : option (arr A) :=
  match ar_ids a with
  | FEmpty => Some (ar_const row_count (ar_miss a))
  | FFull =>
      let? d := da_slice (ar_data a) start_id row_count in
      Some (ar_make row_count FFull d (ar_miss a))
  | FPartial addr ids off =>
      let new_off := off + start_id in
      let start := lower_bound ids new_off in
      let count := lower_bound ids (new_off + row_count) - start in
      let? f := slice_filter row_count addr ids start count new_off in
      let? d := da_slice (ar_data a) start count in
      Some (ar_make row_count f d (ar_miss a))
  end.

(** array.h:247-252 [PresentCount] *)
Definition ar_present_count a : option nat :=
  let? c := count_bits (bmp (ar_data a)) (boff (ar_data a)) (da_size (ar_data a)) in
  Some (if has_missing_id_value a then c + (ar_size a - da_size (ar_data a)) else c).

(** ** Iteration: the calls [fn(id, ...)] and [repeated_fn(first_id, count, ...)];
    presence and value are one optional value. *)
Inductive acall := One (id : nat) (v : option A) | Many (first count : nat) (v : option A).

Definition opt_of (p : bool) (v : A) : option A := if p then Some v else None.
(** array.h:291-298: one call of the lambda; state: calls so far, [id] *)
Definition fe_step (f : idf) (m : option A) (st : list acall * nat) (c : nat * bool * A)
  : option (list acall * nat) :=
  let '(out, id) := st in
  let '(o, p, v) := c in
  let? new_id := ids_offset_to_id f o in
  let out1 := if id <? new_id then out ++ [Many id (new_id - id) m] else out in
  Some (out1 ++ [One new_id (opt_of p v)], S new_id).
(** array.h:273-303 [ForEach(fn, repeated_fn)] *)
Definition ar_for_each a : option (list acall) :=
  if is_const_form a then Some [Many 0 (ar_size a) (ar_miss a)] else
  let? calls := da_for_each (ar_data a) in
  if is_dense_form a then Some (map (fun c => One (fst (fst c)) (opt_of (snd (fst c)) (snd c))) calls) else
  let? st := fold_opt (fe_step (ar_ids a) (ar_miss a)) calls ([], 0) in
  let '(out, id) := st in
  Some (if id <? ar_size a then out ++ [Many id (ar_size a - id) (ar_miss a)] else out).
(** array.h:308-315 [ForEach(fn)]: repeated_fn replaced by a loop *)
Definition expand (c : acall) : list (nat * option A) :=
  match c with
  | One id v => [(id, v)]
  | Many first n v => map (fun i => (first + i, v)) (seq 0 n)
  end.
Definition ar_for_each_fn a : option (list (nat * option A)) :=
  let? cs := ar_for_each a in Some (flat_map expand cs).

(** array.h:345-350: as [fe_step], absent values are skipped *)
Definition fp_step (f : idf) (m : option A) (st : list acall * nat) (c : nat * bool * A)
  : option (list acall * nat) :=
  let '(out, id) := st in
  let '(o, p, v) := c in
  let? new_id := ids_offset_to_id f o in
  let out1 := if id <? new_id then out ++ [Many id (new_id - id) m] else out in
  Some (if (p : bool) then out1 ++ [One new_id (Some v)] else out1, S new_id).
(** array.h:355-358 *)
Definition fp_sparse_step (f : idf) (out : list acall) (c : nat * bool * A) : option (list acall) :=
  let '(o, p, v) := c in
  if (p : bool) then let? id := ids_offset_to_id f o in Some (out ++ [One id (Some v)]) else Some out.
(** array.h:323-360 [ForEachPresent(fn, repeated_fn)]: every call has a value *)
Definition ar_for_each_present a : option (list acall) :=
  if is_all_missing_form a then Some [] else
  if is_const_form a then Some [Many 0 (ar_size a) (ar_miss a)] else
  let? calls := da_for_each (ar_data a) in
  if is_dense_form a then
    Some (flat_map (fun c : nat * bool * A => if snd (fst c) then [One (fst (fst c)) (Some (snd c))] else []) calls)
  else if has_missing_id_value a then
    let? st := fold_opt (fp_step (ar_ids a) (ar_miss a)) calls ([], 0) in
    let '(out, id) := st in
    Some (if id <? ar_size a then out ++ [Many id (ar_size a - id) (ar_miss a)] else out)
  else fold_opt (fp_sparse_step (ar_ids a)) calls [].
Definition ar_for_each_present_fn a : option (list (nat * option A)) :=
  let? cs := ar_for_each_present a in Some (flat_map expand cs).

(** array.h:413-415 CreateArray(span): see create_dense_array *)
Definition create_array (d : A) (mem : list N) (data : list (option A)) : option (arr A) :=
  let? x := create_dense_array d mem data in Some (ar_dense x).
(** array.h:427-429, 434-437 *)
Fixpoint set_ids (b : dbuilder A) (ids : list nat) (vs : list (option A)) : option (dbuilder A) :=
  match ids, vs with
  | i :: ti, v :: tv => let? b' := db_set b i v in set_ids b' ti tv
  | [], [] => Some b
  | _, _ => None
  end.
(** array.h:421-441 CreateArray(size, ids, values).  [values.size() > size * 0.25] *)
Definition create_array_ids (alloc : nat -> list A) (addr size : nat) (ids : list nat) (vs : list (option A))
  : option (arr A) :=
  if size <? 4 * length vs then
    let? b := set_ids (db_init (alloc size)) ids vs in Some (ar_dense (db_build b))
  else
    let? b := set_ids (db_init (alloc (length vs))) (seq 0 (length ids)) vs in
    Some (ar_make size (mk_filter size addr ids 0) (db_build b) None).

(** ** SparseArrayBuilder (array.h:744-790) *)
Record sbuilder := { sb_size : nat; sb_max : nat; sb_ids : list nat; sb_dense : dbuilder A }.
(** array.h:746-751 *)
Definition sb_init (alloc : nat -> list A) (size max : nat) : sbuilder :=
  {| sb_size := size; sb_max := max; sb_ids := []; sb_dense := db_init (alloc max) |}.
(** array.h:763-767 [AddId] *)
Definition sb_add_id (b : sbuilder) (id : nat) : option sbuilder :=
  let? ids := push (sb_max b) (sb_ids b) id in
  Some {| sb_size := sb_size b; sb_max := sb_max b; sb_ids := ids; sb_dense := sb_dense b |}.
(** array.h:775-777 [SetByOffset] *)
Definition sb_set (b : sbuilder) (o : nat) (v : option A) : option sbuilder :=
  let? d := db_set (sb_dense b) o v in
  Some {| sb_size := sb_size b; sb_max := sb_max b; sb_ids := sb_ids b; sb_dense := d |}.
(** array.h:756-759 [Add]; the dense builder is written at [offset_] first *)
Definition sb_add (b : sbuilder) (id : nat) (v : option A) : option sbuilder :=
  let? b1 := sb_set b (length (sb_ids b)) v in sb_add_id b1 id.
(** array.h:779-783 [Build] *)
Definition sb_build (addr : nat) (b : sbuilder) : option (arr A) :=
  let? d := db_build_size (sb_dense b) (length (sb_ids b)) in
  Some (ar_make (sb_size b) (mk_filter (sb_size b) addr (sb_ids b) 0) d None).
End M.
Arguments acall A : clear implicits.
Arguments sbuilder A : clear implicits.
