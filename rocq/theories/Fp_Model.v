(** Model of the fingerprint hasher (arolla/util/fingerprint.h and fingerprint.cc)
    and of the values that are fed to it.  A value is fed as a list of calls of
    CombineRawBytes, each with its bytes.  Integers are little-endian.
    CityHash128WithSeed is a parameter. *)
From Verif Require Import Base Bits_Model Bitmap_Model Dense_Model IdFilter_Model Array_Model Edge_Model SBuf_Model.
Local Open Scope Z_scope.

(** The object representation of an [n]-byte integer. *)
Fixpoint le (n : nat) (z : Z) : list Z :=
  match n with O => [] | S n' => (z mod 256) :: le n' (z / 256) end.
(** fingerprint.h:219-220: arithmetic types and enums; enums without a fixed type have 4 bytes *)
Definition fp_i64 (z : Z) : list (list Z) := [le 8 z].
Definition fp_enum (z : Z) : list (list Z) := [le 4 z].
Definition fp_bool (b : bool) : list (list Z) := [le 1 (if b then 1 else 0)].
Definition fp_size {A} (l : list A) : list (list Z) := fp_i64 (zlen l).
(** fingerprint.h:279-291, text.cc:64-67, bytes: std::string, string_view, Text, Bytes *)
Definition fp_text (s : list Z) : list (list Z) := fp_size s ++ [s].
(** unit.cc:27-30: the string "unit" *)
Definition fp_unit (_ : unit) : list (list Z) := fp_text [117; 110; 105; 116].
(** simple_buffer.h:438-446 with fingerprint.h:239-266, T = int64_t *)
Definition fp_buffer (l : list Z) : list (list Z) := fp_size l ++ [concat (map (le 8) l)].

Section Values.
Context {A : Type}.
Variable enc : A -> list (list Z).
(** memory/optional_value.h:140-147 *)
Definition fp_opt (o : option A) : list (list Z) :=
  match o with Some v => fp_bool true ++ enc v | None => fp_bool false end.
(** dense_array.h:435-442 *)
Fixpoint fp_elems (d : darr A) (i n : nat) : option (list (list Z)) :=
  match n with
  | O => Some []
  | S n' => let? v := da_get d i in
            let? t := fp_elems d (S i) n' in Some (fp_opt v ++ t)
  end.
Definition fp_dense (d : darr A) : option (list (list Z)) :=
  let? t := fp_elems d 0 (da_size d) in Some (fp_i64 (Z.of_nat (da_size d)) ++ t).
(** id_filter.cc:59-65, enum id_filter.h:42 *)
Definition fp_filter (f : idf) : list (list Z) :=
  match f with
  | FEmpty => fp_enum 0 ++ fp_buffer []
  | FPartial _ ids _ => fp_enum 1 ++ fp_buffer (map Z.of_nat ids)
  | FFull => fp_enum 2
  end.
(** array.h:733-739 *)
Definition fp_array (a : arr A) : option (list (list Z)) :=
  let? d := fp_dense (ar_data a) in
  Some (fp_i64 (Z.of_nat (ar_size a)) ++ d ++ fp_opt (ar_miss a) ++ fp_filter (ar_ids a)).
End Values.

(** dense_array/edge.cc:268-272, enum edge.h:78-83 *)
Definition fp_edge (e : edge) : option (list (list Z)) :=
  let? d := fp_dense fp_i64 (e_vals e) in
  Some (fp_enum (if e_split e then 2 else 1) ++ fp_i64 (e_parent e) ++ fp_i64 (e_child e) ++ d).
(** array/edge.h: the fields of ArrayEdge; array/edge.cc:151-155 *)
Record aedge := mkAE { ae_split : bool; ae_parent : Z; ae_child : Z; ae_vals : arr Z }.
Definition fp_aedge (e : aedge) : option (list (list Z)) :=
  let? d := fp_array fp_i64 (ae_vals e) in
  Some (fp_enum (if ae_split e then 2 else 1) ++ fp_i64 (ae_parent e) ++ fp_i64 (ae_child e) ++ d).
(** jagged_shape.h:336-346, over dense edges *)
Fixpoint fp_edges (es : list edge) : option (list (list Z)) :=
  match es with
  | [] => Some []
  | e :: t => let? x := fp_edge e in
              let? y := fp_edges t in Some (x ++ y)
  end.
Definition fp_shape (es : list edge) : option (list (list Z)) :=
  let? t := fp_edges es in Some (fp_size es ++ t).

(** ** FingerprintHasher *)
(** CityHash128WithSeed: bytes and state to state *)
Definition hash128 : Type := list Z -> Z * Z -> Z * Z.
(** fingerprint.h:128-131; [h_size] bytes of the array [h_buf] are in use *)
Record hasher := mkH { h_state : Z * Z; h_buf : list Z; h_size : nat }.
Definition capacity : nat := 256.
(** std::memcpy into an array; [None]: outside of the array *)
Definition memcpy (dst : list Z) (off : nat) (src : list Z) : option (list Z) :=
  if (off + length src <=? length dst)%nat
  then Some (firstn off dst ++ src ++ skipn (off + length src) dst) else None.

Section Hash.
Variable H : hash128.
(** fingerprint.cc:94-110 *)
Definition raw_slow (h : hasher) (data : list Z) : option hasher :=
  let h := if (0 <? h_size h)%nat
           then mkH (H (firstn (h_size h) (h_buf h)) (h_state h)) (h_buf h) 0 else h in
  if (length data <? capacity)%nat then
    let? b := memcpy (h_buf h) 0 data in Some (mkH (h_state h) b (length data))
  else Some (mkH (H data (h_state h)) (h_buf h) (h_size h)).
(** fingerprint.h:196-207 *)
Definition raw (h : hasher) (data : list Z) : option hasher :=
  if (h_size h + length data <=? capacity)%nat then
    let? b := memcpy (h_buf h) (h_size h) data in Some (mkH (h_state h) b (h_size h + length data))
  else raw_slow h data.
Fixpoint feed (h : hasher) (calls : list (list Z)) : option hasher :=
  match calls with
  | [] => Some h
  | c :: t => let? h := raw h c in feed h t
  end.
(** fingerprint.cc:81-85; [mem]: the indeterminate content of the array, [seed]: RuntimeSeed() *)
Definition seeds : Z * Z := (3102879407, 2758948377).
Definition header (seed : Z) (salt : list Z) : list (list Z) := le 4 seed :: fp_text salt.
Definition new_hasher (mem : list Z) (seed : Z) (salt : list Z) : option hasher :=
  feed (mkH seeds mem 0) (header seed salt).
(** fingerprint.cc:87-92 *)
Definition finish (h : hasher) : Z :=
  let s := if (0 <? h_size h)%nat then H (firstn (h_size h) (h_buf h)) (h_state h) else h_state h in
  snd s * 2 ^ 64 + fst s.
(** A hasher is created, fed with calls and finished. *)
Definition fingerprint (mem : list Z) (seed : Z) (salt : list Z) (calls : list (list Z)) : option Z :=
  let? h := new_hasher mem seed salt in
  let? h := feed h calls in Some (finish h).
End Hash.
