(** C02, C03, C04: presence bitmaps.
    Observation: [get_bit 32 bm i] is [Some b] when bit [i] is stored in the
    words [bm] and has value [b], and [None] when it lies outside. *)
From Verif Require Import Base Bits_Model Bits_Proofs Bitmap_Model Bitmap_Proofs.

(** Words are 32-bit. *)
Definition words32 (bm : list N) : Prop := Forall (fun x => x < 2 ^ 32)%N bm.
Lemma words32_wok bm : words32 bm -> Forall (wok W) bm.
Proof. apply Forall_impl. intros x Hx. apply (proj2 (wok_lt W x)). exact Hx. Qed.

(** Bit [i], zero outside of the stored words. *)
Definition bit_or_0 (bm : list N) (i : nat) : bool :=
  match get_bit 32 bm i with Some b => b | None => false end.

(** C02, reading: the 32 bits starting at [offset + 32*index]; a word index
    beyond the bitmap (in particular any word of an empty bitmap) reads as all
    ones. *)
Theorem C02_get_word_with_offset : forall bm index offset,
  words32 bm -> offset < 32 ->
  exists x, get_word_with_offset bm index offset = Some x /\
    forall r, r < 32 -> tb x r =
      if index <? length bm then bit_or_0 bm (offset + 32 * index + r) else true.
Proof.
  exact (fun bm i o H => get_word_with_offset_ok bm i o (words32_wok bm H)).
Qed.
Print Assumptions C02_get_word_with_offset.

Example C02_get_word_ex :
  get_word_with_offset [2147483648; 5]%N 0 31 = Some 11%N /\
  get_word_with_offset [2147483648; 5]%N 1 1 = Some 2%N /\
  get_word_with_offset [] 7 3 = Some (2 ^ 32 - 1)%N.
Proof. repeat split. Qed.

(** C02, element access: an empty bitmap is all present, otherwise the stored bit. *)
Theorem C02_get_bit : forall bm i, (bm = [] \/ i < 32 * length bm) ->
  bm_get_bit bm i = Some (match bm with [] => true | _ => bit_or_0 bm i end).
Proof.
  exact (fun bm i H =>
    match bm as b return (b = [] \/ i < 32 * length b) ->
      bm_get_bit b i = Some (match b with [] => true | _ => bit_or_0 b i end) with
    | [] => fun _ => eq_refl
    | x :: t => fun H => match H with
                         | or_introl E => match nil_cons (eq_sym E) with end
                         | or_intror L => gb_bt (x :: t) i L
                         end
    end H).
Qed.
Print Assumptions C02_get_bit.

(** C02, intersection of bitmaps of [n] elements with offsets [oa], [ob], each
    having exactly the words needed (the invariant of DenseArray): the result has
    offset [min oa ob]; [res] is the arbitrary previous content of the output. *)
Theorem C02_intersect : forall a b oa ob n res,
  words32 a -> words32 b -> oa < 32 -> ob < 32 ->
  length a = bitmap_size (oa + n) -> length b = bitmap_size (ob + n) ->
  length res = Nat.min (length a) (length b) ->
  exists r, intersect a b oa ob res = Some r /\ length r = length res /\
    Nat.min oa ob + n <= 32 * length r /\
    forall i, i < n ->
      get_bit 32 r (Nat.min oa ob + i) = Some (bit_or_0 a (oa + i) && bit_or_0 b (ob + i)).
Proof.
  exact (fun a b oa ob n res Ha Hb =>
    intersect_ok a b oa ob n res (words32_wok a Ha) (words32_wok b Hb)).
Qed.
Print Assumptions C02_intersect.

Example C02_intersect_ex :
  intersect [3221225472; 1]%N [31]%N 30 0 [99]%N = Some [7]%N /\
  bitmap_size (30 + 3) = 2 /\ bitmap_size (0 + 3) = 1.
Proof. repeat split. Qed.

(** The precondition on equal lengths for equal offsets is needed: bitmaps
    with equal offsets and different lengths are read out of bounds. *)
Example C02_intersect_needs_sizes : intersect [1; 1]%N [1]%N 0 0 [0]%N = None.
Proof. reflexivity. Qed.

(** C03 *)
Theorem C03_are_all_bits_set : forall ws n, words32 ws -> n <= 32 * length ws ->
  exists b, are_all_bits_set ws n = Some b /\
    (b = true <-> forall i, i < n -> get_bit 32 ws i = Some true).
Proof.
  exact (fun ws n H Hn =>
    match are_all_bits_set_ok ws n (words32_wok ws H) Hn with
    | ex_intro _ b (conj E Hb) =>
        ex_intro _ b (conj E (iff_trans Hb
          (conj (fun K i Hi => eq_trans (gb_bt ws i (Nat.lt_le_trans _ _ _ Hi Hn)) (f_equal Some (K i Hi)))
                (fun K i Hi => f_equal (fun o => match o with Some b => b | None => false end) (K i Hi)))))
    end).
Qed.
Print Assumptions C03_are_all_bits_set.

Example C03_set_ex :
  are_all_bits_set [4294967295; 3]%N 34 = Some true /\
  are_all_bits_set [4294967295; 3]%N 35 = Some false.
Proof. repeat split. Qed.

Theorem C03_are_all_bits_unset : forall ws n, words32 ws -> n <= 32 * length ws ->
  exists b, are_all_bits_unset ws n = Some b /\
    (b = true <-> forall i, i < n -> get_bit 32 ws i = Some false).
Proof.
  exact (fun ws n H Hn =>
    match are_all_bits_unset_ok ws n (words32_wok ws H) Hn with
    | ex_intro _ b (conj E Hb) =>
        ex_intro _ b (conj E (iff_trans Hb
          (conj (fun K i Hi => eq_trans (gb_bt ws i (Nat.lt_le_trans _ _ _ Hi Hn)) (f_equal Some (K i Hi)))
                (fun K i Hi => f_equal (fun o => match o with Some b => b | None => false end) (K i Hi)))))
    end).
Qed.
Print Assumptions C03_are_all_bits_unset.

Example C03_unset_ex :
  are_all_bits_unset [0; 4]%N 34 = Some true /\ are_all_bits_unset [0; 4]%N 35 = Some false.
Proof. repeat split. Qed.

(** CountBits never reads out of bounds and counts the elements of
    [offset, offset+size) that are set or lie beyond the stored words (in
    particular all of them for the empty bitmap). *)
Theorem C03_count_bits : forall bm offset size,
  count_bits bm offset size =
  Some (length (filter (fun i => match get_bit 32 bm i with Some b => b | None => true end)
                       (seq offset size))).
Proof. exact count_bits_ok. Qed.
Print Assumptions C03_count_bits.

Example C03_count_ex :
  count_bits [3221225472; 1]%N 30 3 = Some 3 /\ count_bits [] 5 3 = Some 3 /\
  count_bits [3221225472; 2]%N 30 3 = Some 2.
Proof. repeat split. Qed.

(** Iteration by groups calls the callback once for each index, in order, with
    the stored bit, and groups have at most 32 elements. *)
Theorem C03_iterate_by_groups : forall ws first count, first + count <= 32 * length ws ->
  exists gs, iterate_by_groups ws first count = Some gs /\
    flat_map (fun g => map (fun c => (fst g + fst c, snd c)) (snd g)) gs =
    map (fun i => (i, bit_or_0 ws (first + i))) (seq 0 count) /\
    Forall (fun g => length (snd g) <= 32) gs.
Proof. exact iterate_by_groups_ok. Qed.
Print Assumptions C03_iterate_by_groups.

Example C03_iterate_by_groups_ex :
  option_map (map fst) (iterate_by_groups [1; 2; 3]%N 31 35) = Some [0; 1; 33].
Proof. reflexivity. Qed.

Theorem C03_iterate : forall bm first count, (bm = [] \/ first + count <= 32 * length bm) ->
  iterate bm first count =
  Some (map (fun i => match bm with [] => true | _ => bit_or_0 bm (first + i) end) (seq 0 count)).
Proof. exact iterate_ok. Qed.
Print Assumptions C03_iterate.

(** The builder for [n] bits, whatever the initial content [mem] of its buffer
    and however the bits are split into Add calls, yields exactly the bits. *)
Theorem C03_builder : forall n mem chunks,
  length mem = bitmap_size n -> length (concat chunks) = n ->
  exists b, add_all (builder_init mem) chunks = Some b /\
    (if forallb id (concat chunks) then builder_build b = []
     else length (builder_build b) = bitmap_size n /\
          forall i, i < n ->
            get_bit 32 (builder_build b) i = Some (nth i (concat chunks) false)).
Proof. exact builder_ok. Qed.
Print Assumptions C03_builder.

Example C03_builder_ex :
  option_map builder_build
    (add_all (builder_init [77; 88]%N) [repeat true 30; repeat false 3; []; [true; false; true]])
  = Some [1073741823; 10]%N.
Proof. reflexivity. Qed.

(** C04 *)
Theorem C04_build : forall n ids, Forall (fun i => i < n) ids ->
  exists b, af_add_all (af_init n) ids = Some b /\
    span_readable (af_build b) /\
    forall i, i < n -> span_bit (af_build b) i = Some (negb (existsb (Nat.eqb i) ids)).
Proof. exact af_build_ok. Qed.
Print Assumptions C04_build.

(** Missing for the full claim: the case without any AddMissed call. *)
Theorem C04_build_size_partial : forall n ids size,
  Forall (fun i => i < n) ids -> size <= n -> ids <> [] ->
  exists b, af_add_all (af_init n) ids = Some b /\
    span_readable (af_build_size b size) /\ sp_len (af_build_size b size) = bitmap_size size /\
    forall i, i < size ->
      span_bit (af_build_size b size) i = Some (negb (existsb (Nat.eqb i) ids)).
Proof. exact af_build_size_ok. Qed.
Print Assumptions C04_build_size_partial.

Example C04_build_size_ex :
  option_map (fun b => span_words (af_build_size b 34)) (af_add_all (af_init 70) [33; 3; 69])
  = Some [4294967287; 4294967293]%N.
Proof. reflexivity. Qed.

(** Without AddMissed the claim is false for every non-zero size: the returned
    buffer claims words over a null pointer. *)
Theorem C04_build_size_refuted : forall n size, 0 < size ->
  exists b, af_add_all (af_init n) [] = Some b /\ ~ span_readable (af_build_size b size).
Proof. exact af_build_size_none. Qed.
Print Assumptions C04_build_size_refuted.

Example C04_refuted_ex :
  sp_len (af_build_size (af_init 5) 3) = 1 /\ span_bit (af_build_size (af_init 5) 3) 0 = None.
Proof. repeat split. Qed.
