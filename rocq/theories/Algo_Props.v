(** C37: bit-range copies and in-place intersections with arbitrary bit skips. *)
From Verif Require Import Base Bits_Model Bits_Proofs Algo_Model Algo_Proofs.

Definition words (w : nat) (ws : list N) : Prop := Forall (fun x => x < 2 ^ N.of_nat w)%N ws.
Lemma words_wok w ws : words w ws -> Forall (wok w) ws.
Proof. apply Forall_impl. intros x Hx. apply wok_lt. exact Hx. Qed.

Definition bit_of (w : nat) (ws : list N) (i : nat) : bool :=
  match get_bit w ws i with Some b => b | None => false end.

(** CopyBits: exactly the bits [ls, ls+n) of the destination are replaced, by the
    bits [rs, rs+n) of the source; no access outside the buffers. *)
Theorem C37_copy_bits : forall w n rhs rs lhs ls,
  0 < w -> words w rhs -> rs < w -> ls < w ->
  rs + n <= w * length rhs -> ls + n <= w * length lhs ->
  exists lhs', copy_bits w n rhs rs lhs ls = Some lhs' /\ length lhs' = length lhs /\
    forall k, get_bit w lhs' k =
      if (ls <=? k) && (k <? ls + n) then Some (bit_of w rhs (rs + (k - ls)))
      else get_bit w lhs k.
Proof.
  exact (fun w n rhs rs lhs ls Hw Hok => copy_bits_ok w Hw n rhs rs lhs ls (words_wok w rhs Hok)).
Qed.
Print Assumptions C37_copy_bits.

Example C37_copy_ex :
  copy_bits 8 11 [170; 171; 255]%N 3 [255; 0; 255]%N 6 = Some [127; 93; 255]%N /\
  copy_bits 8 3 [255]%N 5 [0; 0; 0]%N 7 = Some [128; 3; 0]%N.
Proof. repeat split. Qed.

(** InplaceLogicalAndWithOffsets: the bits [ls, ls+n) of the destination are
    and-ed with the bits [rs, rs+n) of the source and words that hold none of the
    bits [0, ls+n) are untouched.  The last hypothesis is needed, see below. *)
Theorem C37_inplace_and : forall w n rhs rs lhs ls,
  0 < w -> words w rhs -> rs < w -> ls < w ->
  rs + n <= w * length rhs -> ls + n <= w * length lhs -> (0 < n \/ ls <= rs) ->
  exists lhs', inplace_and_with_offsets w n rhs rs lhs ls = Some lhs' /\
    length lhs' = length lhs /\
    (forall k, ls <= k < ls + n ->
       get_bit w lhs' k = Some (bit_of w lhs k && bit_of w rhs (rs + (k - ls)))) /\
    (forall k, w * ((ls + n + w - 1) / w) <= k -> get_bit w lhs' k = get_bit w lhs k).
Proof.
  exact (fun w n rhs rs lhs ls Hw Hok => inplace_and_ok w Hw n rhs rs lhs ls (words_wok w rhs Hok)).
Qed.
Print Assumptions C37_inplace_and.

Example C37_and_ex :
  inplace_and_with_offsets 8 11 [170; 171; 255]%N 3 [255; 255; 255]%N 6
  = Some [80; 93; 5]%N.
Proof. reflexivity. Qed.

(** For zero bits the function may read one word although the source has none. *)
Theorem C37_inplace_and_empty_refuted :
  exists w rhs rs lhs ls, 0 < w /\ rs < w /\ ls < w /\
    rs + 0 <= w * length rhs /\ ls + 0 <= w * length lhs /\
    inplace_and_with_offsets w 0 rhs rs lhs ls = None.
Proof.
  exact (ex_intro _ 8 (ex_intro _ [] (ex_intro _ 0 (ex_intro _ [0%N] (ex_intro _ 1
    (conj (Nat.lt_0_succ 7) (conj (Nat.lt_0_succ 7) (conj (proj1 (Nat.ltb_lt 1 8) eq_refl)
      (conj (le_n 0) (conj (proj1 (Nat.leb_le 1 8) eq_refl) eq_refl)))))))))).
Qed.
Print Assumptions C37_inplace_and_empty_refuted.
