(** C01: bit-range operations touch exactly the requested bits.
    [get_bit w ws i] is the observation: [None] when bit [i] lies outside the
    vector.  All theorems include memory safety (the result is [Some]). *)
From Verif Require Import Base Bits_Model Bits_Proofs.

Theorem C01_set_bit : forall w ws i, 0 < w -> i < w * length ws ->
  exists ws', set_bit w ws i = Some ws' /\ length ws' = length ws /\
    forall j, get_bit w ws' j = if j =? i then Some true else get_bit w ws j.
Proof. exact (fun w ws i Hw => set_bit_ok w Hw ws i). Qed.
Print Assumptions C01_set_bit.

Example C01_set_bit_ex : set_bit 32 [1; 0]%N 33 = Some [1; 2]%N.
Proof. reflexivity. Qed.

Theorem C01_set_bits_in_range : forall w ws s e,
  0 < w -> s <= e -> e <= w * length ws ->
  exists ws', set_bits_in_range w ws s e = Some ws' /\ length ws' = length ws /\
    forall i, get_bit w ws' i =
      if (s <=? i) && (i <? e) then Some true else get_bit w ws i.
Proof. exact (fun w ws s e Hw => set_bits_in_range_ok w Hw ws s e). Qed.
Print Assumptions C01_set_bits_in_range.

Example C01_set_bits_in_range_ex :
  set_bits_in_range 8 [0; 0; 0]%N 6 18 = Some [192; 255; 3]%N.
Proof. reflexivity. Qed.

(** The count is the number of positions of [s,e) whose bit is set. *)
Theorem C01_get_ones_count_in_range : forall w ws s e,
  0 < w -> s <= e -> e <= w * length ws ->
  get_ones_count_in_range w ws s e =
  Some (length (filter (fun i => match get_bit w ws i with Some b => b | None => false end)
                       (seq s (e - s)))).
Proof. exact (fun w ws s e Hw => get_ones_count_ok w Hw ws s e). Qed.
Print Assumptions C01_get_ones_count_in_range.

Example C01_get_ones_count_ex :
  get_ones_count_in_range 8 [255; 129; 255]%N 7 17 = Some 4.
Proof. reflexivity. Qed.

(** [r] is the smallest set position of [b,limit), or [limit] if there is none
    (or if the range is empty). *)
Theorem C01_find_next_set_bit : forall w ws b limit,
  0 < w -> Forall (fun x => x < 2 ^ N.of_nat w)%N ws -> limit <= w * length ws ->
  exists r, find_next_set_bit w ws b limit = Some r /\
    (if limit <=? b then r = limit else
     (r < limit /\ b <= r /\ get_bit w ws r = Some true /\
      forall i, b <= i < r -> get_bit w ws i = Some false)
     \/ (r = limit /\ forall i, b <= i < limit -> get_bit w ws i = Some false)).
Proof.
  exact (fun w ws b limit Hw Hall =>
    find_next_set_bit_ok w Hw ws b limit
      (Forall_impl (wok w) (fun x Hx => proj2 (wok_lt w x) Hx) Hall)).
Qed.
Print Assumptions C01_find_next_set_bit.

Example C01_find_next_ex :
  find_next_set_bit 8 [1; 0; 64]%N 1 24 = Some 22 /\
  find_next_set_bit 8 [1; 0; 64]%N 1 22 = Some 22 /\
  find_next_set_bit 8 [1; 0; 64]%N 1 21 = Some 21.
Proof. repeat split. Qed.
