(** Model of arolla/dense_array/bitmap.h and bitmap.cc.
    [Word] is uint32_t (bitmap.h:41-43), a [Bitmap] is a list of words.
    Sizes and indices are [nat] (int64_t in the code, no overflow modelled). *)
From Verif Require Import Base Bits_Model.

(** bitmap.h:42 *)
Notation W := 32.
(** bitmap.h:43 *)
Definition full_word : N := wones W.

(** bitmap.h:47-49 *)
Definition bitmap_size (bit_count : nat) : nat := (bit_count + W - 1) / W.

(** bitmap.h:51-57 *)
Definition get_word (bm : list N) (index : nat) : option N :=
  if length bm <=? index then Some full_word else rd bm index.

(** bitmap.h:59-68 *)
Definition get_word_with_offset (bm : list N) (index offset : nat) : option N :=
  if length bm <=? index then Some full_word else
  let? x := rd bm index in
  let? mask := wshr W x offset in
  if (offset =? 0) || (index + 1 =? length bm) then Some mask
  else
    let? y := rd bm (index + 1) in
    let? z := wshl W y (W - offset) in
    Some (N.lor mask z).

(** bitmap.cc:27-38 [AreAllBitsSet]: [p] is the pointer, [n] the number of whole
    words left ([bitCount / 32]), [r] the number of bits in the tail. *)
Fixpoint all_set_loop (ws : list N) (p n r : nat) : option bool :=
  match n with
  | S n' => let? x := rd ws p in
            if negb (x =? full_word)%N then Some false
            else all_set_loop ws (S p) n' r
  | O => if 0 <? r then
           let? mask := wshr W full_word (W - r) in
           let? x := rd ws p in
           Some (N.land x mask =? mask)%N
         else Some true
  end.
Definition are_all_bits_set (ws : list N) (bit_count : nat) : option bool :=
  all_set_loop ws 0 (bit_count / W) (bit_count mod W).

(** bitmap.h:74-81 [AreAllBitsUnset] *)
Fixpoint all_unset_loop (ws : list N) (p n r : nat) : option bool :=
  match n with
  | S n' => let? x := rd ws p in
            if negb (x =? 0)%N then Some false else all_unset_loop ws (S p) n' r
  | O => if r =? 0 then Some true else
         let? x := rd ws p in
         let? a := wshr W x r in
         let? b := wshl W a r in
         Some (b =? x)%N
  end.
Definition are_all_bits_unset (ws : list N) (bit_count : nat) : option bool :=
  all_unset_loop ws 0 (bit_count / W) (bit_count mod W).

(** bitmap.h:84-94 [Intersect] without offsets; [res] is the output span with
    arbitrary previous content; [n] is [a.size() - i]. *)
Fixpoint intersect_loop (a b res : list N) (i n : nat) : option (list N) :=
  match n with
  | O => Some res
  | S n' =>
      let? x := rd a i in
      let? y := rd b i in
      let? res' := upd res i (N.land x y) in
      intersect_loop a b res' (S i) n'
  end.
Definition intersect0 (a b res : list N) : option (list N) :=
  intersect_loop a b res 0 (length a).

(** bitmap.h:117-121: shifted loop *)
Fixpoint intersect_shift_loop (first second res : list N) (offset i n : nat)
  : option (list N) :=
  match n with
  | O => Some res
  | S n' =>
      let? x := rd second i in
      let? a := wshr W x offset in
      let? y := rd second (i + 1) in
      let? b := wshl W y (W - offset) in
      let? f := rd first i in
      let? res' := upd res i (N.land f (N.lor a b)) in
      intersect_shift_loop first second res' offset (S i) n'
  end.

(** bitmap.h:99-126 [Intersect] with bit offsets *)
Definition intersect (a b : list N) (oa ob : nat) (res : list N)
  : option (list N) :=
  if oa =? ob then intersect0 a b res else
  let '(first, second) := if ob <? oa then (b, a) else (a, b) in
  let offset := (oa - ob) + (ob - oa) in
  let size1 := length first in
  let size2 := length second in
  let? res1 := intersect_shift_loop first second res offset 0
                 (Nat.min size1 (size2 - 1)) in
  if (0 <? size2) && (size2 - 1 <? size1) then
    let? f := rd first (size2 - 1) in
    let? x := rd second (size2 - 1) in
    let? a := wshr W x offset in
    upd res1 (size2 - 1) (N.land f a)
  else Some res1.

(** bitmap.h:130-134 *)
Definition get_bit_raw (ws : list N) (i : nat) : option bool := get_bit W ws i.
(** bitmap.h:136-143 *)
Definition bm_get_bit (bm : list N) (i : nat) : option bool :=
  match bm with [] => Some true | _ => get_bit W bm i end.
(** bitmap.h:145-148 *)
Definition bm_set_bit (ws : list N) (i : nat) : option (list N) := set_bit W ws i.
(** bitmap.h:150-153 *)
Definition bm_unset_bit (ws : list N) (i : nat) : option (list N) :=
  let? x := rd ws (i / W) in
  let? m := wshl W 1 (i mod W) in
  upd ws (i / W) (N.land x (wnot W m)).

(** bitmap.h:158-163 [IterateWord]: the sequence of calls fn(i, bit) *)
Definition iterate_word (word : N) (count : nat) : list (nat * bool) :=
  map (fun i => (i, tb word i)) (seq 0 count).

(** bitmap.h:187-189: loop over whole words; the result is the pointer, the
    group offset and the groups (offset, calls) executed so far. *)
Fixpoint groups_loop (fuel : nat) (ws : list N) (p go count : nat)
  (acc : list (nat * list (nat * bool)))
  : option (nat * nat * list (nat * list (nat * bool))) :=
  if go + W <=? count then
    match fuel with
    | O => None
    | S fuel' =>
        let? x := rd ws p in
        groups_loop fuel' ws (S p) (go + W) count (acc ++ [(go, iterate_word x W)])
    end
  else Some (p, go, acc).

(** bitmap.h:176-194 [IterateByGroups]: the list of groups
    (group_offset, list of calls fn(i, bit)).  Fuel [count] suffices. *)
Definition iterate_by_groups (ws : list N) (first_bit count : nat)
  : option (list (nat * list (nat * bool))) :=
  let p := first_bit / W in
  let bit_offset := first_bit mod W in
  let? (p1, go1, acc1) :=
    if (0 <? bit_offset) && (0 <? count) then
      let first_word_size := Nat.min count (W - bit_offset) in
      let? x := rd ws p in
      let? y := wshr W x bit_offset in
      Some (S p, first_word_size, [(0, iterate_word y first_word_size)])
    else Some (p, 0, []) in
  let? (p2, go2, acc2) := groups_loop count ws p1 go1 count acc1 in
  if negb (go2 =? count) then
    let? x := rd ws p2 in
    Some (acc2 ++ [(go2, iterate_word x (count - go2))])
  else Some acc2.

(** bitmap.h:199-208 [Iterate]: the sequence of booleans given to fn *)
Definition iterate (bm : list N) (first_bit count : nat) : option (list bool) :=
  match bm with
  | [] => Some (repeat true count)
  | _ => let? gs := iterate_by_groups bm first_bit count in
         Some (map snd (flat_map snd gs))
  end.

(** bitmap.cc:40-48 [CountBits] (offset, size >= 0) *)
Definition count_bits (bm : list N) (offset size : nat) : option nat :=
  let begin := Nat.min (length bm * W) offset in
  let end_ := Nat.max begin (Nat.min (length bm * W) (offset + size)) in
  let? ones := get_ones_count_in_range W bm begin end_ in
  Some (size - (end_ - begin) + ones).

(** bitmap.h:218-230 [CreateEmptyBitmap] (both branches give zero words) *)
Definition create_empty_bitmap (bit_count : nat) : list N :=
  repeat 0%N (bitmap_size bit_count).

(** ** Builder (bitmap.h:267-360) *)
Record builder := { b_data : list N; b_cur : nat; b_all : bool }.

(** bitmap.h:269-271; [mem] is the uninitialised content of the new buffer *)
Definition builder_init (mem : list N) : builder :=
  {| b_data := mem; b_cur := 0; b_all := true |}.

(** bitmap.h:345-355 [Group]: word made of at most 32 bits *)
Fixpoint group_word (bits : list bool) (i : nat) (res : N) (all : bool) : N * bool :=
  match bits with
  | [] => (res, all)
  | true :: t => group_word t (S i) (N.lor res (N.shiftl 1 (N.of_nat i))) all
  | false :: t => group_word t (S i) res false
  end.

(** bitmap.h:294-299: aligned path; [bits] are the values still to be produced *)
Fixpoint add_aligned (fuel : nat) (data : list N) (p : nat) (bits : list bool)
  (all : bool) : option (list N * bool) :=
  if W <=? length bits then
    match fuel with
    | O => None
    | S f =>
        let '(x, all') := group_word (firstn W bits) 0 0%N all in
        let? data' := upd data p x in
        add_aligned f data' (S p) (skipn W bits) all'
    end
  else if 0 <? length bits then
    let '(x, all') := group_word bits 0 0%N all in
    let? data' := upd data p x in Some (data', all')
  else Some (data, all).

(** bitmap.h:302-308 add_word_fn *)
Definition add_word (data : list N) (word_id : nat) (bit_offset : nat) (x : N)
  : option (list N) :=
  let? d := rd data word_id in
  let? s := wshl W x bit_offset in
  let? data1 := upd data word_id (N.lor d s) in
  if word_id + 1 <? length data1 then
    let? t := wshr W x (W - bit_offset) in
    upd data1 (word_id + 1) t
  else Some data1.

(** bitmap.h:309-314: unaligned path; [pos] is current_bit_ + offset *)
Fixpoint add_unaligned (fuel : nat) (data : list N) (pos bit_offset : nat)
  (bits : list bool) (all : bool) : option (list N * bool) :=
  if W <=? length bits then
    match fuel with
    | O => None
    | S f =>
        let '(x, all') := group_word (firstn W bits) 0 0%N all in
        let? data' := add_word data (pos / W) bit_offset x in
        add_unaligned f data' (pos + W) bit_offset (skipn W bits) all'
    end
  else if 0 <? length bits then
    let '(x, all') := group_word bits 0 0%N all in
    let? data' := add_word data (pos / W) bit_offset x in Some (data', all')
  else Some (data, all).

(** bitmap.h:284-317 [AddByGroups] / 324-336 [AddForEach]: [bits] is the
    sequence of values returned by the generator. *)
Definition builder_add (b : builder) (bits : list bool) : option builder :=
  let bit_offset := b_cur b mod W in
  let? (data, all) :=
    if bit_offset =? 0 then
      add_aligned (length bits) (b_data b) (b_cur b / W) bits (b_all b)
    else
      add_unaligned (length bits) (b_data b) (b_cur b) bit_offset bits (b_all b) in
  Some {| b_data := data; b_cur := b_cur b + length bits; b_all := all |}.

(** bitmap.h:338-341 [Build] *)
Definition builder_build (b : builder) : list N :=
  if b_all b then [] else b_data b.

(** ** RawSpan / SimpleBuffer::Slice and AlmostFullBuilder.
    A span is the memory reachable from its data pointer together with its
    claimed size (raw_span.h:93-95); reading element [i] reads [mem] at [i].
    A null pointer has no memory. *)
Record span := { sp_mem : list N; sp_len : nat }.
Definition null_span : span := {| sp_mem := []; sp_len := 0 |}.
(** raw_span.h:87-90 [subspan(offset, new_size)]; the DCHECK is not active in
    optimised builds and does not clamp. *)
Definition subspan (s : span) (offset n : nat) : span :=
  {| sp_mem := skipn offset (sp_mem s); sp_len := n |}.
(** simple_buffer.h:299-317 [Slice] *)
Definition span_slice (s : span) (offset count : nat) : span :=
  if 0 <? count then subspan s offset count else null_span.
(** Every element the span claims to have can be read. *)
Definition span_readable (s : span) : Prop := sp_len s <= length (sp_mem s).
(** The words of a readable span. *)
Definition span_words (s : span) : list N := firstn (sp_len s) (sp_mem s).

(** bitmap.h:236-264; [None] is the unallocated state ([bitmap_ == nullptr]). *)
Record almost_full := { af_bits : nat; af_buf : option (list N) }.
Definition af_init (bit_count : nat) : almost_full :=
  {| af_bits := bit_count; af_buf := None |}.

(** bitmap.cc:50-61 [CreateFullBitmap] *)
Definition create_full_bitmap (bit_count : nat) : option (list N) :=
  let ws := repeat full_word (bitmap_size bit_count) in
  let last_bits := bit_count mod W in
  if negb (last_bits =? 0) then
    let? x := rd ws (length ws - 1) in
    let? m := wshl W 1 last_bits in
    upd ws (length ws - 1) (N.land x (m - 1))
  else Some ws.

(** bitmap.h:242-249 [AddMissed] *)
Definition af_add_missed (b : almost_full) (id : nat) : option almost_full :=
  let? ws := match af_buf b with
             | Some ws => Some ws
             | None => create_full_bitmap (af_bits b)
             end in
  let? ws' := bm_unset_bit ws id in
  Some {| af_bits := af_bits b; af_buf := Some ws' |}.

Definition af_span (b : almost_full) : span :=
  match af_buf b with
  | Some ws => {| sp_mem := ws; sp_len := length ws |}
  | None => null_span
  end.
(** bitmap.h:251 [Build()] *)
Definition af_build (b : almost_full) : span := af_span b.
(** bitmap.h:252-254 [Build(size)] *)
Definition af_build_size (b : almost_full) (size : nat) : span :=
  span_slice (af_span b) 0 (bitmap_size size).
