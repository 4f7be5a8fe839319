(** Model of FrameIterator (arolla/qtype/array_like/frame_iter.{h,cc}) and of the copiers
    of arolla/dense_array/qtype/copier.h and arolla/array/qtype/copier.h.

    All values are of one type [A]; types are tags.  A frame is the list of its slots, a
    slot is a presence flag and a value; the flag of a slot of a non-optional type is set
    and not read.  Sizes are [nat] (a negative row_count is not modelled). *)
From Verif Require Import Base Bits_Model Bitmap_Model Dense_Model IdFilter_Model Array_Model.

(** The end of a loop that may not terminate. *)
Inductive loop_result (X : Type) := Finished (x : X) | Running | Undefined.
Arguments Finished {X}. Arguments Running {X}. Arguments Undefined {X}.

(** ** ForEachFrame, for any copiers. *)
Section loop.
Variables F C : Type.
(** PreloadFrames and SaveOutputsOfProcessedFrames with [frames_count]; [C] is the state
    of the copiers. *)
Variable preload : nat -> C -> list F -> option (C * list F).
Variable save : nat -> C -> list F -> option C.
Variable fn : F -> F.

(** frame_iter.h:105-107: fn on the frames [i], [i + 1], ..., [n] of them *)
Fixpoint run_frames (fs : list F) (i n : nat) : option (list F) :=
  match n with
  | O => Some fs
  | S n' => let? f := rd fs i in let? fs' := upd fs i (fn f) in run_frames fs' (S i) n'
  end.
(** The body of the loop, frame_iter.h:103-108. *)
Definition batch (rows offset : nat) (c : C) (fs : list F) : option (C * list F) :=
  let count := Nat.min (length fs) (rows - offset) in
  let? (c1, fs1) := preload count c fs in
  let? fs2 := run_frames fs1 0 count in
  let? c2 := save count c1 fs2 in Some (c2, fs2).
(** ForEachFrame, frame_iter.h:101-110. *)
Fixpoint for_each (fuel rows offset : nat) (c : C) (fs : list F) : loop_result (C * list F) :=
  if offset <? rows then
    match fuel with
    | O => Running
    | S k => match batch rows offset c fs with
             | Some (c', fs') => for_each k rows (offset + length fs) c' fs'
             | None => Undefined
             end
    end
  else Finished (c, fs).
End loop.
Arguments run_frames {F}. Arguments batch {F C}. Arguments for_each {F C}.

(** ** Copiers.  Slots and frames. *)
Notation cell A := (bool * A)%type.
Notation frame A := (list (bool * A)).
Section copiers.
Variable A : Type.
(** T{}, the value of a missing OptionalValue<T> that the library made *)
Variable dflt : A.

(** An array and the tag of its value type; the array slots of the outputs. *)
Inductive src := SD (a : darr A) | SA (a : arr A).
Record tsrc := { ts_ty : nat; ts_src : src }.
Record slot := { sl_id : nat; sl_ty : nat; sl_opt : bool }.
Record aslot := { as_id : nat; as_ty : nat; as_arr : bool }.
Definition src_size (s : src) : nat := match s with SD a => da_size a | SA a => ar_size a end.
Definition is_arr (s : src) : bool := match s with SD _ => false | SA _ => true end.

(** FramePtr::Set on one of the frames *)
Definition set_cell (fs : list (frame A)) (i slot : nat) (c : cell A) : option (list (frame A)) :=
  let? f := rd fs i in let? f' := upd f slot c in upd fs i f'.
Fixpoint set_cells (fs : list (frame A)) (slot : nat) (ws : list (nat * cell A)) : option (list (frame A)) :=
  match ws with
  | [] => Some fs
  | (i, c) :: r => let? fs' := set_cell fs i slot c in set_cells fs' slot r
  end.
Fixpoint all_some {X} (l : list (option X)) : option (list X) :=
  match l with
  | [] => Some []
  | x :: r => let? v := x in let? vs := all_some r in Some (v :: vs)
  end.

(** The calls of Set (frame, cell) of one mapping in CopyNextBatch, [n] frames from row
    [row]: all values as present, dense copier.h:73-75 and 82-85, array copier.h:69-73 *)
Definition writes_full (vs : list A) (row n : nat) : option (list (nat * cell A)) :=
  all_some (map (fun i => let? v := rd vs (row + i) in Some (i, (true, v))) (seq 0 n)).
(** with a bitmap, dense copier.h:87-96, array copier.h:74-84 *)
Definition writes_bitmap (d : darr A) (row n : nat) : option (list (nat * cell A)) :=
  let? gs := iterate_by_groups (bmp d) (row + boff d) n in
  all_some (flat_map (fun g => map (fun c => let? v := rd (vals d) (row + (fst g + fst c)) in
                                             Some (fst g + fst c, (snd c, v))) (snd g)) gs).
(** frames[id] with frames = begin - ids_offset - current_row_id, array copier.h:99-100 *)
Definition frame_of (ids : list nat) (off row k : nat) : option nat :=
  let? x := rd ids k in if off + row <=? x then Some (x - off - row) else None.
Definition opt_cell (o : option A) : cell A := match o with Some v => (true, v) | None => (false, dflt) end.
(** sparse and constant arrays, array copier.h:85-117 *)
Definition writes_sparse (a : arr A) (row n : nat) : option (list (nat * cell A)) :=
  let d := ar_data a in
  let '(ids, off) := match ar_ids a with FPartial _ ids off => (ids, off) | _ => ([], 0) end in
  let fill := map (fun i => (i, opt_cell (ar_miss a))) (seq 0 n) in
  let from := lower_bound ids (row + off) in
  let count := lower_bound ids (row + n + off) - from in
  let? ws := match bmp d with
             | [] => all_some (map (fun i => let? f := frame_of ids off row (from + i) in
                                             let? v := rd (vals d) (from + i) in Some (f, (true, v))) (seq 0 count))
             | _ => let? gs := iterate_by_groups (bmp d) (from + boff d) count in
                    all_some (flat_map (fun g => map (fun c => let? f := frame_of ids off row (from + (fst g + fst c)) in
                                                               let? v := rd (vals d) (from + (fst g + fst c)) in
                                                               Some (f, (snd c, v))) (snd g)) gs)
             end in
  Some (fill ++ ws).
Definition writes (s : src) (opt : bool) (row n : nat) : option (list (nat * cell A)) :=
  match s with
  | SD d => if negb opt then writes_full (vals d) row n
            else match bmp d with [] => writes_full (vals d) row n | _ => writes_bitmap d row n end
  | SA a => if is_full_form a then writes_full (vals (ar_data a)) row n
            else if is_dense_form a then writes_bitmap (ar_data a) row n
            else writes_sparse a row n
  end.

(** BatchToFramesCopier: the arrays of one type.  The first component of the key tells
    Array from DenseArray. *)
Record icopier := { ic_key : bool * nat; ic_rows : option nat; ic_row : nat; ic_maps : list (src * slot) }.
Fixpoint copy_maps (ms : list (src * slot)) (row n : nat) (fs : list (frame A)) : option (list (frame A)) :=
  match ms with
  | [] => Some fs
  | (s, sl) :: r =>
    let? ws := writes s (sl_opt sl) row n in
    let? fs' := set_cells fs (sl_id sl) ws in copy_maps r row n fs'
  end.
(** CopyNextBatch on the span of the frames *)
Definition ic_next (c : icopier) (fs : list (frame A)) : option (icopier * list (frame A)) :=
  let? fs' := copy_maps (ic_maps c) (ic_row c) (length fs) fs in
  Some ({| ic_key := ic_key c; ic_rows := ic_rows c; ic_row := ic_row c + length fs; ic_maps := ic_maps c |}, fs').
(** AddMapping, dense copier.h:49-63, array copier.h:52-62; [None] is an error status *)
Definition ic_add (c : icopier) (t : tsrc) (s : slot) : option icopier :=
  let n := src_size (ts_src t) in
  if (match ic_rows c with Some r => r =? n | None => true end) && (ts_ty t =? sl_ty s) && (sl_opt s || negb (is_arr (ts_src t)))
  then Some {| ic_key := ic_key c; ic_rows := Some n; ic_row := ic_row c; ic_maps := ic_maps c ++ [(ts_src t, s)] |}
  else None.
Definition key_eqb (k l : bool * nat) : bool := eqb (fst k) (fst l) && (snd k =? snd l).
Fixpoint ic_insert (cs : list icopier) (t : tsrc) (s : slot) : option (list icopier) :=
  let k := (is_arr (ts_src t), ts_ty t) in
  match cs with
  | [] => let? c := ic_add {| ic_key := k; ic_rows := None; ic_row := 0; ic_maps := [] |} t s in Some [c]
  | c :: r => if key_eqb (ic_key c) k then let? c' := ic_add c t s in Some (c' :: r)
              else let? r' := ic_insert r t s in Some (c :: r')
  end.
(** CreateInputCopiers, frame_iter.cc:43-70, before the copiers are taken from the map *)
Fixpoint ic_create (ts : list tsrc) (ss : list slot) (cs : list icopier) : option (list icopier) :=
  match ts, ss with
  | [], [] => Some cs
  | t :: ts', s :: ss' => let? cs' := ic_insert cs t s in ic_create ts' ss' cs'
  | _, _ => None
  end.

(** BatchFromFramesCopier, dense copier.h:119-225 and array copier.h:137-243, which only
    differ in the last step of Finalize.  Buffer<T>::Builder is its memory. *)
Record omap := { om_slot : slot; om_out : aslot; om_vals : list A; om_bits : option builder }.
Record ocopier := { oc_key : bool * nat; oc_row : nat; oc_maps : list omap }.
(** SetN and the inserter: one value after the other from [row] *)
Fixpoint put_values (mem : list A) (row : nat) (vs : list A) : option (list A) :=
  match vs with
  | [] => Some mem
  | v :: r => let? mem' := upd mem row v in put_values mem' (S row) r
  end.
Definition om_next (row : nat) (fs : list (frame A)) (m : omap) : option omap :=
  let? cs := all_some (map (fun f => rd f (sl_id (om_slot m))) fs) in
  let? vs := put_values (om_vals m) row (map snd cs) in
  let? bs := match om_bits m with
             | None => Some None
             | Some b => let? b' := builder_add b (map fst cs) in Some (Some b')
             end in
  Some {| om_slot := om_slot m; om_out := om_out m; om_vals := vs; om_bits := bs |}.
Definition oc_next (c : ocopier) (fs : list (frame A)) : option ocopier :=
  let? ms := all_some (map (om_next (oc_row c) fs) (oc_maps c)) in
  Some {| oc_key := oc_key c; oc_row := oc_row c + length fs; oc_maps := ms |}.
(** AddMapping: the types have to match; the builders are made by Start *)
Definition oc_add (c : ocopier) (s : slot) (o : aslot) : option ocopier :=
  if as_ty o =? sl_ty s
  then Some {| oc_key := oc_key c; oc_row := oc_row c; oc_maps := oc_maps c ++ [{| om_slot := s; om_out := o; om_vals := []; om_bits := None |}] |}
  else None.
Fixpoint oc_insert (cs : list ocopier) (s : slot) (o : aslot) : option (list ocopier) :=
  let k := (as_arr o, as_ty o) in
  match cs with
  | [] => let? c := oc_add {| oc_key := k; oc_row := 0; oc_maps := [] |} s o in Some [c]
  | c :: r => if key_eqb (oc_key c) k then let? c' := oc_add c s o in Some (c' :: r)
              else let? r' := oc_insert r s o in Some (c :: r')
  end.
Fixpoint oc_create (os : list aslot) (ss : list slot) (cs : list ocopier) : option (list ocopier) :=
  match os, ss with
  | [], [] => Some cs
  | o :: os', s :: ss' => let? cs' := oc_insert cs s o in oc_create os' ss' cs'
  | _, _ => None
  end.
(** SetArraySize: [alloc n] and [allocw n] are the arbitrary contents of new buffers *)
Definition om_start (alloc : nat -> list A) (allocw : nat -> list N) (n : nat) (m : omap) : omap :=
  {| om_slot := om_slot m; om_out := om_out m; om_vals := alloc n;
     om_bits := if sl_opt (om_slot m) then Some (builder_init (allocw (bitmap_size n))) else None |}.
Definition oc_start alloc allocw (n : nat) (c : ocopier) : ocopier :=
  {| oc_key := oc_key c; oc_row := oc_row c; oc_maps := map (om_start alloc allocw n) (oc_maps c) |}.
(** Finalize: the arrays stored to the array slots *)
Definition om_final (m : omap) : nat * src :=
  let d := mkD (om_vals m) (match om_bits m with Some b => builder_build b | None => [] end) 0 in
  (as_id (om_out m), if as_arr (om_out m) then SA (ar_dense d) else SD d).

(** ** FrameIterator. *)
Definition copiers : Type := (list icopier * list ocopier)%type.
Fixpoint ics_next (cs : list icopier) (fs : list (frame A)) : option (list icopier * list (frame A)) :=
  match cs with
  | [] => Some ([], fs)
  | c :: r => let? (c', fs') := ic_next c fs in let? (r', fs'') := ics_next r fs' in Some (c' :: r', fs'')
  end.
(** PreloadFrames, frame_iter.cc:184-188 *)
Definition preload (count : nat) (c : copiers) (fs : list (frame A)) : option (copiers * list (frame A)) :=
  if count <=? length fs then
    let? (ics, fs') := ics_next (fst c) (firstn count fs) in Some ((ics, snd c), fs' ++ skipn count fs)
  else None.
(** SaveOutputsOfProcessedFrames, frame_iter.cc:190-198 *)
Definition save (count : nat) (c : copiers) (fs : list (frame A)) : option copiers :=
  if count <=? length fs then
    let? ocs := all_some (map (fun o => oc_next o (firstn count fs)) (snd c)) in Some (fst c, ocs)
  else None.

Record iterator := { it_rows : nat; it_cp : copiers; it_frames : list (frame A) }.
(** Create, frame_iter.cc:104-145, and the constructor, lines 147-169; [None] is an error
    status.  [order] is the unspecified order in which the copiers leave the hash maps,
    [fresh] an initialised frame. *)
Fixpoint common_rows (cs : list icopier) (rows : option nat) : option (option nat) :=
  match cs with
  | [] => Some rows
  | c :: r => match ic_rows c with
              | None => None
              | Some n => match rows with
                          | Some m => if m =? n then common_rows r (Some n) else None
                          | None => common_rows r (Some n)
                          end
              end
  end.
Definition row_count (cs : list icopier) (want : option nat) : option nat :=
  let? r := common_rows cs None in
  match r, want with
  | None, None => None
  | None, Some n => Some n
  | Some m, None => Some m
  | Some m, Some n => if n =? m then Some m else None
  end.
Definition create (alloc : nat -> list A) (allocw : nat -> list N)
    (iorder : list icopier -> list icopier) (oorder : list ocopier -> list ocopier)
    (arrays : list tsrc) (islots : list slot) (outs : list aslot) (oslots : list slot)
    (fresh : frame A) (want : option nat) (buffer : nat) : option iterator :=
  let? ics := ic_create arrays islots [] in
  let? ocs := oc_create outs oslots [] in
  let? n := row_count (iorder ics) want in
  Some {| it_rows := n; it_cp := (iorder ics, map (oc_start alloc allocw n) (oorder ocs)); it_frames := repeat fresh (Nat.min n buffer) |}.
(** CustomFrameInitialization, frame_iter.h:91-94 *)
Definition custom_init (f : frame A -> frame A) (it : iterator) : iterator :=
  {| it_rows := it_rows it; it_cp := it_cp it; it_frames := map f (it_frames it) |}.
(** ForEachFrame and StoreOutput *)
Definition iterate_frames (fuel : nat) (fn : frame A -> frame A) (it : iterator) : loop_result (copiers * list (frame A)) :=
  for_each preload save fn fuel (it_rows it) 0 (it_cp it) (it_frames it).
Definition store_output (c : copiers) : list (nat * src) := flat_map (fun o => map om_final (oc_maps o)) (snd c).
End copiers.
