(** Model of the codecs for arrays and their edges:
    arolla/serialization_codecs/{dense_array,array}/{encoders,decoders}.
    A message is a record of its fields, a repeated field is a list; integers in
    messages are [Z].  An uninitialised buffer of [n] elements is [alloc n].
    [None] is undefined behaviour; [inl] is an error. *)
From Verif Require Import Base Bits_Model Bitmap_Model Dense_Model SBuf_Model IdFilter_Model Array_Model Edge_Model ArrEdge_Model.

Inductive derr :=
  | MissingSize | NegSize | BitmapCount | ValuesCount | MissingChars | StartsCount | EndsCount
  | NegStart | StartAfterEnd | EndTooLarge
  | InputCount | InputType | DataTooLarge | UnexpectedIds | IdsCount | IdsOrder | IdNegative | IdTooLarge
  | MissingEdgeType | BadEdgeType | MissingParent | UnexpectedParent | BadEdge (e : edge_err).

(** ** DenseArray *)
(** dense_array_codec.proto: size, bitmap, values *)
Record dproto (V : Type) := mkDP { dp_size : option Z; dp_bitmap : list N; dp_values : list V }.
Arguments mkDP {V}. Arguments dp_size {V}. Arguments dp_bitmap {V}. Arguments dp_values {V}.
(** size, bitmap, characters, value_offset_starts, value_offset_ends *)
Record sproto := mkSP { sp_size : option Z; sp_bitmap : list N; sp_chars : option (list Z); sp_starts : list Z; sp_ends : list Z }.

(** dense_array_encoder.cc:65-79 [GenBitmapProto] *)
Definition gen_bitmap (bm : list N) (offset size : nat) : option (list N) :=
  let? c := count_bits bm offset size in
  if c =? size then Some [] else
  let? ws := words_with_offset bm offset 0 (bitmap_size size) in
  let last_word_usage := size mod W in
  if negb (last_word_usage =? 0) then
    let? x := rd ws (bitmap_size size - 1) in
    let? m := wshl W 1 last_word_usage in
    upd ws (bitmap_size size - 1) (N.land x (m - 1))
  else Some ws.
(** dense_array_encoder.cc:81-93, 105-125; units have no values *)
Definition encode_unit (a : darr unit) : option (dproto unit) :=
  let? b := gen_bitmap (bmp a) (boff a) (da_size a) in
  Some (mkDP (Some (Z.of_nat (da_size a))) b []).
Definition encode_values {V} (a : darr V) : option (dproto V) :=
  let? b := gen_bitmap (bmp a) (boff a) (da_size a) in
  let? cs := da_for_each a in
  Some (mkDP (Some (Z.of_nat (da_size a))) b (map snd (filter (fun c => snd (fst c)) cs))).

(** DenseArray<Bytes>, DenseArray<Text>: [sd_arr] has the offsets of the
    StringsBuffer as its values (strings_buffer.h:349-361). *)
Record sarr := mkSD { sd_arr : darr (Z * Z); sd_chars : list Z; sd_base : Z }.
(** operator[]; strings_buffer.h:286-293 *)
Definition sd_get (a : sarr) (i : nat) : option (option (list Z)) :=
  let? o := da_get (sd_arr a) i in
  match o with
  | None => Some None
  | Some (st, en) => let? s := zslice (sd_chars a) (st - sd_base a) (en - st) in Some (Some s)
  end.
(** dense_array_encoder.cc:152-160: [i], [n]: from [i] on *)
Fixpoint offsets_loop (a : sarr) (i n : nat) : option (list Z * list Z) :=
  match n with
  | O => Some ([], [])
  | S k =>
      let? p := da_present (sd_arr a) i in
      if p then
        let? (st, en) := rd (vals (sd_arr a)) i in
        let? (ss, es) := offsets_loop a (S i) k in
        Some ((st - sd_base a)%Z :: ss, (en - sd_base a)%Z :: es)
      else offsets_loop a (S i) k
  end.
(** dense_array_encoder.cc:136-163 *)
Definition encode_strings (a : sarr) : option sproto :=
  let d := sd_arr a in
  let? b := gen_bitmap (bmp d) (boff d) (da_size d) in
  let? (ss, es) := offsets_loop a 0 (da_size d) in
  Some (mkSP (Some (Z.of_nat (da_size d))) b (Some (sd_chars a)) ss es).

(** bitmap.h:47-49 in int64_t *)
Definition bitmap_size_z (n : Z) : option Z := if (n + 31 <=? int64_max)%Z then Some ((n + 31) / 32)%Z else None.
(** dense_array_decoder.cc:76-92 *)
Definition decode_header (size : option Z) (bitmap : list N) : option (derr + nat * list N) :=
  match size with
  | None => Some (inl MissingSize)
  | Some n =>
      if (n <? 0)%Z then Some (inl NegSize) else
      match bitmap with
      | [] => Some (inr (Z.to_nat n, []))
      | _ => let? k := bitmap_size_z n in
             if (k =? Z.of_nat (length bitmap))%Z then Some (inr (Z.to_nat n, bitmap)) else Some (inl BitmapCount)
      end
  end.
(** dense_array_decoder.cc:94-99 *)
Definition decode_unit (p : dproto unit) : option (derr + darr unit) :=
  let? h := decode_header (dp_size p) (dp_bitmap p) in
  match h with
  | inl e => Some (inl e)
  | inr (n, bitmap) => Some (inr (mkD (repeat tt n) bitmap 0))
  end.
(** 113-119: [bits]: what Iterate passes to the callback from now on *)
Fixpoint scatter {V} (bits : list bool) (values : list V) (i j : nat) (data : list V) : option (list V) :=
  match bits with
  | [] => Some data
  | true :: t => let? v := rd values j in let? data := upd data i v in scatter t values (S i) (S j) data
  | false :: t => scatter t values (S i) j data
  end.
(** 101-123 *)
Definition decode_values {V} (alloc : nat -> list V) (p : dproto V) : option (derr + darr V) :=
  let? h := decode_header (dp_size p) (dp_bitmap p) in
  match h with
  | inl e => Some (inl e)
  | inr (n, bitmap) =>
      let? c := count_bits bitmap 0 n in
      if negb (c =? length (dp_values p)) then Some (inl ValuesCount) else
      let? bits := iterate bitmap 0 n in
      let? data := scatter bits (dp_values p) 0 0 (alloc n) in
      Some (inr (mkD data bitmap 0))
  end.
(** 134-159 [CheckStringsOffsets] *)
Fixpoint check_offsets (starts ends : list Z) (size : Z) : option derr :=
  match starts, ends with
  | s :: starts, e :: ends =>
      if (s <? 0)%Z then Some NegStart else
      if (e <? s)%Z then Some StartAfterEnd else
      if (size <? e)%Z then Some EndTooLarge else check_offsets starts ends size
  | _, _ => None
  end.
(** 185-195 *)
Fixpoint scatter_offsets (bits : list bool) (starts ends : list Z) (i j : nat) (data : list (Z * Z)) : option (list (Z * Z)) :=
  match bits with
  | [] => Some data
  | true :: t =>
      let? s := rd starts j in let? e := rd ends j in
      let? data := upd data i (s, e) in scatter_offsets t starts ends (S i) (S j) data
  | false :: t => let? data := upd data i (0%Z, 0%Z) in scatter_offsets t starts ends (S i) j data
  end.
(** 161-203 *)
Definition decode_strings (alloc : nat -> list (Z * Z)) (p : sproto) : option (derr + sarr) :=
  let? h := decode_header (sp_size p) (sp_bitmap p) in
  match h with
  | inl e => Some (inl e)
  | inr (n, bitmap) =>
      match sp_chars p with
      | None => Some (inl MissingChars)
      | Some chars =>
          let? c := count_bits bitmap 0 n in
          if negb (c =? length (sp_starts p)) then Some (inl StartsCount) else
          if negb (c =? length (sp_ends p)) then Some (inl EndsCount) else
          match check_offsets (sp_starts p) (sp_ends p) (Z.of_nat (length chars)) with
          | Some e => Some (inl e)
          | None =>
              let? bits := iterate bitmap 0 n in
              let? data := scatter_offsets bits (sp_starts p) (sp_ends p) 0 0 (alloc n) in
              Some (inr (mkSD (mkD data bitmap 0) chars 0))
          end
      end
  end.

(** 271-290; array_decoder.cc:235-253: to-scalar edges and shapes are a size *)
Definition decode_size (n : Z) : derr + nat := if (n <? 0)%Z then inl NegSize else inr (Z.to_nat n).

(** [edge_type]: not set, or a number; 1 is MAPPING, 2 is SPLIT_POINTS *)
Record eproto := mkEP { ep_type : option Z; ep_parent : option Z }.
(** dense_array_encoder.cc:178-206, array_encoder.cc:125-152: the message; the
    values of the edge are the only input value *)
Definition encode_edge (split : bool) (parent : Z) : eproto :=
  if split then mkEP (Some 2%Z) None else mkEP (Some 1%Z) (Some parent).
(** dense_array_decoder.cc:211-228 *)
Definition decode_edge_type (p : eproto) : derr + bool :=
  match ep_type p with
  | None => inl MissingEdgeType
  | Some t => if (t =? 1)%Z then inr false else if (t =? 2)%Z then inr true else inl BadEdgeType
  end.
Definition edge_result {E} (r : option (edge_err + E)) : option (derr + E) :=
  let? r := r in Some (match r with inl e => inl (BadEdge e) | inr e => inr e end).

(** An input value of the message: a dense array of the expected type, an optional
    of it, an array of integers, or something else. *)
Inductive input (V : Type) := InDense (d : darr V) | InOpt (o : option V) | InArr (a : arr V) | InOther.
Arguments InDense {V}. Arguments InOpt {V}. Arguments InArr {V}. Arguments InOther {V}.
(** dense_array_decoder.cc:230-269 *)
Definition decode_edge (p : eproto) (ins : list (input Z)) : option (derr + edge) :=
  match ins with
  | [InDense a] =>
      match decode_edge_type p with
      | inl e => Some (inl e)
      | inr false =>
          match ep_parent p with
          | None => Some (inl MissingParent)
          | Some n => edge_result (from_mapping a n)
          end
      | inr true =>
          match ep_parent p with
          | Some _ => Some (inl UnexpectedParent)
          | None => edge_result (from_split_points a)
          end
      end
  | [_] => Some (inl InputType)
  | _ => Some (inl InputCount)
  end.

(** ** Array *)
Record aproto := mkAP { ap_size : option Z; ap_ids : list Z }.
(** id_filter.h: ids(), ids_offset() *)
Definition filter_ids (f : idf) : list nat * nat := match f with FPartial _ ids off => (ids, off) | _ => ([], 0) end.
(** array_encoder.cc:58-84; the DCHECKs have no effect *)
Definition encode_array {V} (a : arr V) : aproto * list (input V) :=
  let size := Some (Z.of_nat (ar_size a)) in
  if ar_size a =? 0 then (mkAP size [], []) else
  if da_size (ar_data a) =? ar_size a then (mkAP size [], [InDense (ar_data a)]) else
  let '(ids, off) := filter_ids (ar_ids a) in
  (mkAP size (map (fun i => (Z.of_nat i - Z.of_nat off)%Z) ids), [InDense (ar_data a); InOpt (ar_miss a)]).
(** array_decoder.cc:57-69 *)
Definition decode_array_size (p : aproto) : derr + Z :=
  match ap_size p with None => inl MissingSize | Some n => if (n <? 0)%Z then inl NegSize else inr n end.
(** std::adjacent_find with std::greater_equal: is there a pair? *)
Fixpoint has_descent (l : list Z) : bool :=
  match l with x :: ((y :: _) as t) => (y <=? x)%Z || has_descent t | _ => false end.
(** array_decoder.cc:71-99 *)
Definition decode_ids (expected : nat) (limit : Z) (p : aproto) : option (derr + list Z) :=
  let ids := ap_ids p in
  if negb (length ids =? expected) then Some (inl IdsCount) else
  match ids with
  | [] => Some (inr [])
  | x :: _ =>
      if has_descent ids then Some (inl IdsOrder) else
      if (x <? 0)%Z then Some (inl IdNegative) else
      let? l := rd ids (expected - 1) in
      if (limit <=? l)%Z then Some (inl IdTooLarge) else Some (inr ids)
  end.
(** array_decoder.cc:101-169; [addr]: the address of the new buffer of ids *)
Definition decode_array {V} (addr : nat) (p : aproto) (ins : list (input V)) : option (derr + arr V) :=
  match decode_array_size p with
  | inl e => Some (inl e)
  | inr n =>
      let size := Z.to_nat n in
      if (n =? 0)%Z then
        match ins with
        | _ :: _ => Some (inl InputCount)
        | [] => match ap_ids p with _ :: _ => Some (inl UnexpectedIds) | [] => Some (inr (ar_const 0 None)) end
        end
      else
      match ins with
      | [] => Some (inl InputCount)
      | InDense d :: rest =>
          if (n <? Z.of_nat (da_size d))%Z then Some (inl DataTooLarge) else
          if (Z.of_nat (da_size d) =? n)%Z then
            match rest with
            | _ :: _ => Some (inl InputCount)
            | [] => match ap_ids p with _ :: _ => Some (inl UnexpectedIds) | [] => Some (inr (ar_dense d)) end
            end
          else
          match rest with
          | [] => Some (inl InputCount)
          | InOpt m :: rest =>
              match rest with
              | _ :: _ => Some (inl InputCount)
              | [] =>
                  let? r := decode_ids (da_size d) n p in
                  match r with
                  | inl e => Some (inl e)
                  | inr ids => Some (inr (ar_make size (mk_filter size addr (map Z.to_nat ids) 0) d m))
                  end
              end
          | _ => Some (inl InputType)
          end
      | _ => Some (inl InputType)
      end
  end.
(** array_decoder.cc:189-201 *)
Definition decode_parent (p : eproto) : derr + Z :=
  match ep_parent p with None => inl MissingParent | Some n => if (n <? 0)%Z then inl NegSize else inr n end.
(** array_decoder.cc:203-233; 171-187 is as for dense arrays *)
Definition decode_array_edge (alloc : nat -> list Z) (allocw : nat -> list N) (p : eproto) (ins : list (input Z)) : option (derr + aedge) :=
  match decode_edge_type p with
  | inl e => Some (inl e)
  | inr split =>
      match ins with
      | [InArr a] =>
          if (split : bool) then edge_result (ae_from_split_points alloc allocw a)
          else match decode_parent p with inl e => Some (inl e) | inr n => edge_result (ae_from_mapping a n) end
      | [_] => Some (inl InputType)
      | _ => Some (inl InputCount)
      end
  end.
