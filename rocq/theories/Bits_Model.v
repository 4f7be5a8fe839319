(** Model of arolla/util/bits.h (class [Bits<Word>]).
    A [Word*] is a list of [N]; [w] is [kIntBits] (bits per word).
    [index & (kIntBits-1)] is written [index mod w] and [index >> kLogIntBits]
    is written [index / w]: they coincide since kIntBits is a power of two
    (bits.h:75-79).  Indices are unbounded [nat] instead of size_t. *)
From Verif Require Import Base.

(** bits.h:81-83 [GetBit] *)
Definition get_bit (w : nat) (ws : list N) (i : nat) : option bool :=
  let? x := rd ws (i / w) in Some (tb x (i mod w)).

(** bits.h:85-87 [SetBit] *)
Definition set_bit (w : nat) (ws : list N) (i : nat) : option (list N) :=
  let? x := rd ws (i / w) in
  let? m := wshl w 1 (i mod w) in
  upd ws (i / w) (N.lor x m).

(** bits.h:105-107: the loop writing [ones] to [n] consecutive words *)
Fixpoint fill_words (ws : list N) (p n : nat) (v : N) : option (list N) :=
  match n with
  | O => Some ws
  | S n' => let? ws' := upd ws p v in fill_words ws' (S p) n' v
  end.

(** bits.h:90-110 [SetBitsInRange] *)
Definition set_bits_in_range (w : nat) (ws : list N) (start end_ : nat)
  : option (list N) :=
  if start =? end_ then Some ws else
  let start_word := start / w in
  let end_word := (end_ - 1) / w in
  let ones := wones w in
  let? start_mask := wshl w ones (start mod w) in
  let? end_mask := wshr w ones ((end_word + 1) * w - end_) in
  let? x := rd ws start_word in
  if end_word =? start_word then
    upd ws start_word (N.lor x (N.land start_mask end_mask))
  else
    let? ws1 := upd ws start_word (N.lor x start_mask) in
    let? ws2 := fill_words ws1 (S start_word) (end_word - S start_word) ones in
    let? y := rd ws2 end_word in
    upd ws2 end_word (N.lor y end_mask).

(** bits.h:112-114 [CountOnes]: std::bitset<kIntBits>(word).count() *)
Definition count_ones (w : nat) (x : N) : nat :=
  length (filter (tb x) (seq 0 w)).

(** bits.h:131-133: summation loop over [n] words from [p] *)
Fixpoint sum_ones (w : nat) (ws : list N) (p n : nat) (acc : nat) : option nat :=
  match n with
  | O => Some acc
  | S n' => let? x := rd ws p in sum_ones w ws (S p) n' (acc + count_ones w x)
  end.

(** bits.h:116-135 [GetOnesCountInRange] *)
Definition get_ones_count_in_range (w : nat) (ws : list N) (start end_ : nat)
  : option nat :=
  if start =? end_ then Some 0 else
  let start_word := start / w in
  let end_word := (end_ - 1) / w in
  let? x := rd ws start_word in
  let? sm := wshl w (wones w) (start mod w) in
  let c := N.land x sm in
  let? endmask := wshr w (wones w) ((end_word + 1) * w - end_) in
  if end_word =? start_word then Some (count_ones w (N.land c endmask))
  else
    let? sum := sum_ones w ws (S start_word) (end_word - S start_word)
                         (count_ones w c) in
    let? y := rd ws end_word in
    Some (sum + count_ones w (N.land y endmask)).

(** bits.h:52-70 [FindLSBSetNonZero] (__builtin_ctz, undefined for 0) *)
Definition find_lsb (w : nat) (x : N) : option nat := find (tb x) (seq 0 w).

(** bits.h:159-164: loop over all but the last word.
    [n] is [last_int_index - int_index].  [inl r] is an early return. *)
Fixpoint find_loop (w : nat) (ws : list N) (idx : nat) (one : N) (n : nat)
  : option (nat + nat * N) :=
  match n with
  | O => Some (inr (idx, one))
  | S n' =>
      if negb (one =? 0)%N then
        let? b := find_lsb w one in Some (inl (idx * w + b))
      else
        let? x := rd ws (S idx) in find_loop w ws (S idx) x n'
  end.

(** bits.h:138-174 [FindNextSetBitInVector] *)
Definition find_next_set_bit (w : nat) (ws : list N) (bit_index limit : nat)
  : option nat :=
  if limit <=? bit_index then Some limit else
  let int_index := bit_index / w in
  let? one_word := rd ws int_index in
  let first_bit_offset := bit_index mod w in
  let? m1 := wshl w 1 first_bit_offset in
  if negb (N.land one_word m1 =? 0)%N then Some bit_index else
  let? m2 := wshl w (wones w) first_bit_offset in
  let one_word := N.land one_word m2 in
  let last_int_index := (limit - 1) / w in
  let? r := find_loop w ws int_index one_word (last_int_index - int_index) in
  match r with
  | inl res => Some res
  | inr (int_index, one_word) =>
      let? m3 := wshl w (wones w - 1)%N ((limit - 1) mod w) in
      let one_word := N.land one_word (wnot w m3) in
      if negb (one_word =? 0)%N then
        let? b := find_lsb w one_word in
        Some (int_index * w + b)
      else Some limit
  end.
